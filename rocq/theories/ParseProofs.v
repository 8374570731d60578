(** Reading an input file: proofs. *)
From Coq Require Import ZArith Arith List Bool Ascii Lia.
From Verif Require Import LinSpec ModInvModel FglmModel ParseSpec ParseModel.
Import ListNotations.
Open Scope nat_scope.

(** * Strings *)
Lemma skipn_len {A} (a b : list A) : skipn (length a) (a ++ b) = b.
Proof. induction a; [reflexivity|exact IHa]. Qed.
Lemma firstn_len {A} (a b : list A) : firstn (length a) (a ++ b) = a.
Proof. induction a; [reflexivity|cbn; f_equal; exact IHa]. Qed.
Lemma index_none c s : ~ In c s -> index c s = None.
Proof. induction s as [|x s IH]; intros H; [reflexivity|]. cbn [index]. destruct (Ascii.eqb_spec x c) as [->|N]; [exfalso; apply H; left; reflexivity|]. rewrite IH by (intros Q; apply H; right; exact Q). reflexivity. Qed.
Lemma index_app c a b : ~ In c a -> index c (a ++ c :: b) = Some (length a).
Proof. induction a as [|x a IH]; intros H; cbn [app index length]; [rewrite Ascii.eqb_refl; reflexivity|]. destruct (Ascii.eqb_spec x c) as [->|N]; [exfalso; apply H; left; reflexivity|]. rewrite IH by (intros Q; apply H; right; exact Q). reflexivity. Qed.
Lemma index_later c a b : ~ In c a -> index c (a ++ b) = match index c b with Some k => Some (length a + k) | None => None end.
Proof. induction a as [|x a IH]; intros H; cbn [app index length]; [destruct (index c b); reflexivity|]. destruct (Ascii.eqb_spec x c) as [->|N]; [exfalso; apply H; left; reflexivity|]. rewrite IH by (intros Q; apply H; right; exact Q). destruct (index c b); reflexivity. Qed.
Lemma count_app c a b : count_char c (a ++ b) = count_char c a + count_char c b.
Proof. unfold count_char. rewrite filter_app, app_length. reflexivity. Qed.
Lemma count_none c a : ~ In c a -> count_char c a = 0.
Proof. induction a as [|x a IH]; intros H; [reflexivity|]. unfold count_char in *. cbn [filter]. destruct (Ascii.eqb_spec x c) as [->|N]; [exfalso; apply H; left; reflexivity|]. apply IH. intros Q. apply H. right. exact Q. Qed.
Lemma same_iff a b : same a b = true <-> a = b.
Proof.
  revert b. induction a as [|x a IH]; intros [|y b]; cbn [same]; split; intros H; try discriminate H; try reflexivity.
  - apply andb_true_iff in H as [E H]. apply Ascii.eqb_eq in E. apply IH in H. congruence.
  - injection H as -> ->. rewrite Ascii.eqb_refl. apply IH. reflexivity.
Qed.
Lemma char_at_len a b c x : nth_error b 0 = Some x -> char_at (a ++ b) (length a) c = Ascii.eqb x c.
Proof. intros E. unfold char_at. rewrite nth_error_app2, Nat.sub_diag by lia. rewrite E. reflexivity. Qed.
Lemma digit_not c x : is_digit c = true -> is_digit x = false -> c <> x.
Proof. congruence. Qed.

(** * strtol *)
Lemma read_digits_val d r a : forallb is_digit d = true -> match r with [] => True | c :: _ => is_digit c = false end -> read_digits a (d ++ r) = fold_left (fun a c => 10 * a + digit c)%Z d a.
Proof.
  revert a. induction d as [|c d IH]; intros a Hd Hr.
  - cbn [app fold_left]. destruct r as [|c r]; [reflexivity|]. cbn [read_digits]. rewrite Hr. reflexivity.
  - cbn [forallb] in Hd. apply andb_true_iff in Hd as [Hc Hd]. cbn [app read_digits fold_left]. rewrite Hc. apply IH; assumption.
Qed.
Lemma fold_digits_pos d : forall a, (0 <= a)%Z -> forallb is_digit d = true -> (0 <= fold_left (fun a c => 10 * a + digit c) d a)%Z.
Proof.
  induction d as [|c d IH]; intros a Ha Hd; [exact Ha|]. cbn [forallb] in Hd. apply andb_true_iff in Hd as [Hc Hd]. cbn [fold_left]. apply IH; [|exact Hd]. unfold is_digit in Hc. apply andb_true_iff in Hc as [H1 H2]. apply Nat.leb_le in H1. unfold digit. lia.
Qed.
Lemma dval_pos d : number d -> (0 <= dval d)%Z.
Proof. intros [_ H]. apply fold_digits_pos; [lia|exact H]. Qed.
Lemma digit_nospace c : is_digit c = true -> is_space c = false.
Proof. unfold is_digit, is_space. intros H. apply andb_true_iff in H as [H1 H2]. apply Nat.leb_le in H1, H2. apply orb_false_iff. split; [apply Nat.eqb_neq; lia|]. apply andb_false_iff. right. apply Nat.leb_gt. lia. Qed.
Lemma digit_special c : is_digit c = true -> special c = false.
Proof.
  intros H. unfold special. apply orb_false_iff. split; [|apply digit_nospace; exact H]. destruct (existsb _ _) eqn:E; [|reflexivity]. apply existsb_exists in E as (x & Hx & E). apply Ascii.eqb_eq in E. subst x. destruct Hx as [<-|[<-|[<-|[<-|[<-|[]]]]]]; discriminate H.
Qed.
(** the sign and the digits; what follows does not start with a digit *)
Definition nodigit (r : str) : Prop := match r with [] => True | c :: _ => is_digit c = false end.
Lemma strtol_plain d r : number d -> nodigit r -> strtol (d ++ r) = clip (dval d).
Proof.
  intros [N H] Hr. destruct d as [|c d]; [congruence|]. pose proof H as H0. cbn [forallb] in H. apply andb_true_iff in H as [Hc H]. unfold strtol. cbn [app drop_space]. rewrite (digit_nospace c Hc).
  destruct (Ascii.eqb_spec c "-"); [subst c; discriminate Hc|]. destruct (Ascii.eqb_spec c "+"); [subst c; discriminate Hc|]. f_equal. apply (read_digits_val (c :: d) r 0%Z H0 Hr).
Qed.
Lemma strtol_minus d r : number d -> nodigit r -> strtol ("-"%char :: d ++ r) = clip (- dval d).
Proof. intros [N H] Hr. unfold strtol. cbn [drop_space]. change (is_space "-") with false. cbn iota. rewrite Ascii.eqb_refl. rewrite (read_digits_val d r 0%Z H Hr). reflexivity. Qed.
Lemma strtol_plus d r : number d -> nodigit r -> strtol ("+"%char :: d ++ r) = clip (dval d).
Proof. intros [N H] Hr. unfold strtol. cbn [drop_space]. change (is_space "+") with false. cbn iota. change (Ascii.eqb "+" "-") with false. cbn iota. rewrite Ascii.eqb_refl. rewrite (read_digits_val d r 0%Z H Hr). reflexivity. Qed.
Lemma read_none a r : nodigit r -> read_digits a r = a.
Proof. destruct r as [|c r]; [reflexivity|]. cbn [nodigit read_digits]. intros ->. reflexivity. Qed.
Lemma clip_id z : (- 2 ^ 63 <= z < 2 ^ 63)%Z -> clip z = z.
Proof. unfold clip. lia. Qed.
Lemma int32_id z : (- 2 ^ 31 <= z < 2 ^ 31)%Z -> int32 z = z.
Proof. intros H. unfold int32. rewrite Z.mod_small by lia. lia. Qed.

(** * Names *)
Lemma name_chars n c : name n -> In c n -> special c = false.
Proof. intros [H _] Hc. rewrite forallb_forall in H. apply negb_true_iff, H. exact Hc. Qed.
Lemma special_in x : In x ["+"; "-"; "*"; "^"; ","]%char -> special x = true.
Proof. intros H. unfold special. apply orb_true_iff. left. apply existsb_exists. exists x. split; [exact H|apply Ascii.eqb_refl]. Qed.
Lemma not_in_special x s : (forall c, In c s -> special c = false) -> special x = true -> ~ In x s.
Proof. intros H E Hx. rewrite (H x Hx) in E. discriminate E. Qed.
Lemma find_name_spec names : NoDup names -> forall k0 k, k < length names -> find_name names (nth k names []) k0 = Some (k0 + k).
Proof.
  induction names as [|n names IH]; intros ND k0 k Hk; [cbn in Hk; lia|]. inversion ND as [|? ? N1 N2]; subst. cbn [find_name]. destruct k as [|k].
  - cbn [nth]. rewrite (proj2 (same_iff n n) eq_refl), Nat.add_0_r. reflexivity.
  - cbn [nth length] in *. destruct (same n (nth k names [])) eqn:E; [apply same_iff in E; exfalso; apply N1; rewrite E; apply nth_In; lia|]. rewrite IH by (auto; lia). f_equal. lia.
Qed.
Lemma find_name_none names v : ~ In v names -> forall k0, find_name names v k0 = None.
Proof. induction names as [|n names IH]; intros H k0; [reflexivity|]. cbn [find_name]. destruct (same n v) eqn:E; [apply same_iff in E; exfalso; apply H; left; exact E|]. apply IH. intros Q. apply H. right. exact Q. Qed.

(** * One factor *)
Definition tail_ok (tl : str) : Prop := tl = [] \/ tl = [","%char].
Definition sgn_ok (sg : str) : Prop := sg = [] \/ sg = ["+"%char] \/ sg = ["-"%char].
Lemma signs_app sg v : sgn_ok sg -> (forall c, In c v -> special c = false) -> v <> [] -> forall r, signs (sg ++ v ++ r) = length sg.
Proof.
  intros Hs Hv Nv r. destruct v as [|c v]; [congruence|]. assert (E : signs ((c :: v) ++ r) = 0).
  { cbn [app signs]. pose proof (Hv c (or_introl eq_refl)) as Sc. destruct (Ascii.eqb_spec c " "); [subst c; discriminate Sc|]. destruct (Ascii.eqb_spec c "+"); [subst c; discriminate Sc|]. destruct (Ascii.eqb_spec c "-"); [subst c; discriminate Sc|]. reflexivity. }
  destruct Hs as [->|[->| ->]]; [exact E|change (S (signs ((c :: v) ++ r)) = 1); rewrite E; reflexivity..].
Qed.
Lemma caret_0 s : caret s 0 = 0.
Proof. destruct s; reflexivity. Qed.
Lemma caret_app a r : ~ In "^"%char a -> forall n, length a <= n -> caret (a ++ r) n = length a + caret r (n - length a).
Proof.
  induction a as [|c a IH]; intros H n Hn; [cbn [app length]; rewrite Nat.sub_0_r; reflexivity|]. cbn [length] in *. destruct n as [|n]; [lia|]. cbn [app caret]. destruct (Ascii.eqb_spec c "^") as [->|N]; [exfalso; apply H; left; reflexivity|]. rewrite IH by (auto with datatypes; try lia; intros Q; apply H; right; exact Q). reflexivity.
Qed.
Lemma in_spec_chars v x : (forall c, In c v -> special c = false) -> In x ["+"; "-"; "*"; "^"; ","]%char -> ~ In x v.
Proof. intros Hv Hx. apply not_in_special; [exact Hv|apply special_in; exact Hx]. Qed.

Definition ext_ok (x post : str) : Prop := (x = [] /\ (post = [] \/ exists r, post = "*"%char :: r)) \/ (x = [","%char] /\ post = []) \/ exists d, x = "^"%char :: d.
Definition ext_val (x : str) : str := match x with c :: d => if Ascii.eqb c "^" then d else ["1"%char] | [] => ["1"%char] end.
Lemma seg_ok names pre sg v x post exps : sgn_ok sg -> (forall c, In c v -> special c = false) -> v <> [] -> ext_ok x post ->
  store_seg names (pre ++ sg ++ v ++ x ++ post) (length pre) (length pre + length sg + length v + length x) exps =
  match find_name names v 0 with Some k => setz exps k (int32 (strtol (ext_val x))) | None => Some exps end.
Proof.
  intros Hs Hv Nv Hx. set (t := pre ++ sg ++ v ++ x ++ post). unfold store_seg.
  assert (S0 : skipn (length pre) t = sg ++ v ++ x ++ post) by apply skipn_len. rewrite S0.
  assert (NC : ~ In "^"%char (sg ++ v)). { intros H. apply in_app_or in H as [H|H]; [|revert H; apply in_spec_chars; [exact Hv|cbn; auto]]. destruct Hs as [->|[->| ->]]; cbn in H; intuition discriminate. }
  replace (length pre + length sg + length v + length x - length pre) with (length (sg ++ v) + length x) by (rewrite app_length; lia).
  rewrite (app_assoc sg v), (caret_app (sg ++ v) (x ++ post) NC) by lia. rewrite <- (app_assoc sg v), (signs_app sg v Hs Hv Nv). replace (length (sg ++ v) + length x - length (sg ++ v)) with (length x) by lia.
  set (q := length pre + (length sg + length v)).
  assert (Lv : 1 <= length v) by (destruct v; [congruence|cbn; lia]).
  assert (T2 : t = (pre ++ sg ++ v) ++ x ++ post) by (unfold t; rewrite <- !app_assoc; reflexivity). assert (Lq : length (pre ++ sg ++ v) = q) by (rewrite !app_length; reflexivity).
  assert (LC : char_at t (q - 1) "," = false).
  { unfold char_at. destruct (nth_error t (q - 1)) as [y|] eqn:E; [|reflexivity]. apply Ascii.eqb_neq. intros ->. rewrite T2, nth_error_app1 in E by (rewrite Lq; lia). rewrite app_assoc, nth_error_app2 in E by (rewrite app_length; lia). apply nth_error_In in E. revert E. apply in_spec_chars; [exact Hv|cbn; auto 6]. }
  assert (C : exists j0, length pre + (length (sg ++ v) + caret (x ++ post) (length x)) = S j0 /\ (if char_at t j0 "," then j0 else S j0) = q /\ char_at t q "^" = match x with c :: _ => Ascii.eqb c "^" | [] => false end).
  { rewrite app_length. destruct Hx as [(-> & Hp)|[(-> & ->)|(d & ->)]].
    - exists (q - 1). cbn [length app]. rewrite caret_0. split; [unfold q; lia|]. rewrite LC. split; [unfold q; lia|]. unfold char_at. rewrite T2, nth_error_app2, Lq, Nat.sub_diag by lia. cbn [app]. destruct Hp as [->|(r & ->)]; reflexivity.
    - exists q. change (caret ([","%char] ++ []) (length [","%char])) with 1. split; [unfold q; lia|]. assert (E : forall c, char_at t q c = Ascii.eqb "," c) by (intros c; unfold char_at; rewrite T2, nth_error_app2, Lq, Nat.sub_diag by lia; reflexivity). rewrite !E. split; reflexivity.
    - exists (q - 1). cbn [length app caret]. rewrite Ascii.eqb_refl. split; [unfold q; lia|]. rewrite LC. split; [unfold q; lia|]. unfold char_at. rewrite T2, nth_error_app2, Lq, Nat.sub_diag by lia. reflexivity. }
  destruct C as (j0 & -> & C2 & C3). rewrite C2, C3. replace (q <? length pre + length sg) with false by (symmetry; apply Nat.ltb_ge; unfold q; lia).
  assert (V : firstn (q - (length pre + length sg)) (skipn (length pre + length sg) t) = v).
  { unfold t. rewrite app_assoc, <- app_length, skipn_len. rewrite app_length. replace (q - (length pre + length sg)) with (length v) by (unfold q; lia). apply firstn_len. }
  rewrite V. destruct (find_name names v 0) as [k|]; [|reflexivity]. do 3 f_equal. unfold ext_val. destruct x as [|c d]; [reflexivity|]. destruct (Ascii.eqb_spec c "^") as [->|]; [|reflexivity].
  rewrite T2. replace (S q) with (length ((pre ++ sg ++ v) ++ ["^"%char])) by (rewrite app_length, Lq; cbn; lia). change (("^"%char :: d) ++ post) with (["^"%char] ++ d ++ post). rewrite (app_assoc (pre ++ sg ++ v)), skipn_len.
  replace (length pre + length sg + length v + length ("^"%char :: d) - q - 1) with (length d) by (unfold q; cbn [length]; lia). apply firstn_len.
Qed.
(** * All the factors *)
Lemma loop_skip names t op exps w : ~ In "*"%char w -> forall r i, store_loop names t (w ++ r) i op exps = store_loop names t r (i + length w) op exps.
Proof.
  induction w as [|c w IH]; intros H r i; [cbn [app length]; rewrite Nat.add_0_r; reflexivity|]. cbn [app store_loop length]. destruct (Ascii.eqb_spec c "*") as [->|N]; [exfalso; apply H; left; reflexivity|]. rewrite IH by (intros Q; apply H; right; exact Q). f_equal. lia.
Qed.
(** a factor as it is read: the name and the exponent; the last one may be followed by a comma *)
Definition factor := (str * option str)%type.
Definition f_text (f : factor) : str := fst f ++ match snd f with None => [] | Some d => "^"%char :: d end.
Definition f_ok (f : factor) : Prop := (forall c, In c (fst f) -> special c = false) /\ fst f <> [] /\ forall d, snd f = Some d -> number d.
Definition f_exp (f : factor) : Z := match snd f with None => 1%Z | Some d => dval d end.
Fixpoint store_fs (names : list str) (fs : list factor) (exps : list Z) : option (list Z) :=
  match fs with [] => Some exps | f :: r => let? e := match find_name names (fst f) 0 with Some k => setz exps k (int32 (f_exp f)) | None => Some exps end in store_fs names r e end.
Lemma number_special d : number d -> forall c, In c d -> special c = false.
Proof. intros [_ H] c Hc. rewrite forallb_forall in H. apply digit_special, H, Hc. Qed.
Lemma f_nostar f : f_ok f -> ~ In "*"%char (f_text f).
Proof.
  intros (A & B & C) H. unfold f_text in H. apply in_app_or in H as [H|H]; [revert H; apply in_spec_chars; [exact A|cbn; auto]|]. destruct (snd f) as [d|]; [|destruct H]. destruct H as [H|H]; [discriminate H|]. revert H. apply in_spec_chars; [apply number_special, C; reflexivity|cbn; auto].
Qed.
Lemma ext_exp d tl : number d -> tail_ok tl -> (dval d < 2 ^ 31)%Z -> int32 (strtol (d ++ tl)) = int32 (dval d).
Proof.
  intros N Ht L. pose proof (dval_pos d N). rewrite strtol_plain by (auto; destruct Ht as [->| ->]; reflexivity || exact I). rewrite clip_id by lia. reflexivity.
Qed.
Lemma one_exp : strtol ["1"%char] = 1%Z.
Proof. reflexivity. Qed.
Lemma loop_ok names tl : tail_ok tl -> forall fs pre sg exps, fs <> [] -> sgn_ok sg -> (forall f, In f fs -> f_ok f /\ (f_exp f < 2 ^ 31)%Z) ->
  let t := pre ++ sg ++ join "*" (map f_text fs) ++ tl in
  store_loop names t (sg ++ join "*" (map f_text fs) ++ tl) (length pre) (length pre) exps = store_fs names fs exps.
Proof.
  intros Ht. induction fs as [|f fs IH]; intros pre sg exps NE Hs Hf t; [congruence|]. destruct (Hf f (or_introl eq_refl)) as [Fk Fe]. pose proof Fk as (F1 & F2 & F3). assert (Ns : ~ In "*"%char sg) by (destruct Hs as [->|[->| ->]]; cbn; intuition discriminate).
  destruct fs as [|g fs].
  - cbn [map join store_fs] in *. rewrite app_assoc. rewrite <- (app_nil_r ((sg ++ f_text f) ++ tl)). rewrite loop_skip.
    2: { intros H. apply in_app_or in H as [H|H]; [apply in_app_or in H as [H|H]; [contradiction|exact (f_nostar f Fk H)]|destruct Ht as [->| ->]; cbn in H; intuition discriminate]. }
    cbn [store_loop]. unfold t, f_text. destruct f as [v e]. cbn [fst snd] in *. set (x := match e with None => tl | Some d => "^"%char :: d ++ tl end).
    assert (E1 : pre ++ sg ++ (v ++ match e with Some d => "^"%char :: d | None => [] end) ++ tl = pre ++ sg ++ v ++ x ++ []) by (unfold x; rewrite app_nil_r; destruct e; rewrite <- !app_assoc; reflexivity). rewrite E1.
    assert (E2 : length pre + length ((sg ++ v ++ match e with Some d => "^"%char :: d | None => [] end) ++ tl) = length pre + length sg + length v + length x) by (unfold x; destruct e; rewrite !app_length; cbn [length]; rewrite ?app_length; lia). rewrite E2.
    rewrite seg_ok; [|exact Hs|exact F1|exact F2|unfold x, ext_ok; destruct e as [d|]; [right; right; exists (d ++ tl); reflexivity|destruct Ht as [->| ->]; [left; auto|right; left; auto]]].
    destruct (find_name names v 0) as [k|]; [|reflexivity]. replace (int32 (strtol (ext_val x))) with (int32 (f_exp (v, e))); [destruct (setz exps k _); reflexivity|]. unfold x, f_exp, ext_val. cbn [snd]. destruct e as [d|]; [rewrite Ascii.eqb_refl; symmetry; apply ext_exp; [apply F3; reflexivity|exact Ht|exact Fe]|]. destruct Ht as [->| ->]; reflexivity.
  - change (join "*" (map f_text (f :: g :: fs))) with (f_text f ++ "*"%char :: join "*" (map f_text (g :: fs))) in *. set (J := join "*" (map f_text (g :: fs))) in *.
    rewrite <- app_assoc in *. cbn [app] in *. rewrite app_assoc. rewrite loop_skip. 2: { intros H. apply in_app_or in H as [H|H]; [contradiction|exact (f_nostar f Fk H)]. }
    cbn [store_loop]. rewrite Ascii.eqb_refl. destruct f as [v e]. cbn [fst snd] in *. set (x := match e with None => [] | Some d => "^"%char :: d end).
    assert (E1 : t = pre ++ sg ++ v ++ x ++ "*"%char :: J ++ tl) by (unfold t, f_text; cbn [fst snd]; fold x; rewrite <- !app_assoc; reflexivity).
    assert (E2 : length pre + length (sg ++ f_text (v, e)) = length pre + length sg + length v + length x) by (unfold f_text; cbn [fst snd]; fold x; rewrite !app_length; lia).
    pose proof (seg_ok names pre sg v x ("*"%char :: J ++ tl) exps Hs F1 F2) as SK. rewrite <- E1, <- E2 in SK. rewrite SK; clear SK; [|unfold x, ext_ok; destruct e as [d|]; [right; right; exists d; reflexivity|left; split; [reflexivity|right; eexists; reflexivity]]].
    cbn [store_fs fst]. assert (EV : int32 (strtol (ext_val x)) = int32 (f_exp (v, e))). { unfold x, f_exp, ext_val. cbn [snd]. destruct e as [d|]; [rewrite Ascii.eqb_refl; rewrite <- (app_nil_r d) at 1; apply ext_exp; [apply F3; reflexivity|left; reflexivity|exact Fe]|reflexivity]. }
    rewrite EV. destruct (match find_name names v 0 with Some k => setz exps k (int32 (f_exp (v, e))) | None => Some exps end) as [e1|]; [|reflexivity]. cbn [obind].
    set (pre' := pre ++ sg ++ f_text (v, e) ++ ["*"%char]). assert (E3 : S (length pre + length (sg ++ f_text (v, e))) = length pre') by (unfold pre'; rewrite !app_length; cbn [length]; lia). rewrite E3.
    replace t with (pre' ++ [] ++ J ++ tl) by (unfold t, pre'; rewrite <- !app_assoc; reflexivity). apply (IH pre' [] e1); [discriminate|left; reflexivity|]. intros f Hfi. apply Hf. right. exact Hfi.
Qed.
(** * The exponents of a term *)
Lemma setz_spec l k x : k < length l -> setz l k x = Some (map (fun i => if (i =? k)%nat then x else nth i l 0%Z) (seq 0 (length l))).
Proof.
  revert k. induction l as [|y l IH]; intros k Hk; [cbn in Hk; lia|]. destruct k as [|k]; cbn [setz length seq map].
  - cbn [Nat.eqb nth]. do 2 f_equal. rewrite <- seq_shift, map_map. transitivity (map (fun i => nth i l 0%Z) (seq 0 (length l))); [|apply map_ext; intros i; reflexivity]. clear. induction l as [|z l IH]; [reflexivity|]. cbn [length seq map nth]. f_equal. rewrite <- seq_shift, map_map. exact IH.
  - cbn [length] in Hk. rewrite IH by lia. cbn [obind Nat.eqb nth]. do 2 f_equal. rewrite <- (seq_shift (length l)), map_map. apply map_ext. intros i. reflexivity.
Qed.
Lemma nth_map_seq' {A} (f : nat -> A) n r d : r < n -> nth r (map f (seq 0 n)) d = f r.
Proof. intros H. rewrite (nth_indep _ d (f 0)) by (rewrite map_length, seq_length; exact H). rewrite map_nth, seq_nth by exact H. reflexivity. Qed.
Definition fac_of (names : list str) (f : nat * option str) : factor := (nth (fst f) names [], snd f).
Definition exp_of (f : nat * option str) : Z := match snd f with None => 1%Z | Some d => dval d end.
Lemma store_facs names : NoDup names -> forall fac exps, length exps = length names -> (forall f, In f fac -> fst f < length names /\ (0 <= exp_of f < 2 ^ 31)%Z) -> NoDup (map fst fac) ->
  store_fs names (map (fac_of names) fac) exps = Some (map (fun k => match find (fun f => (fst f =? k)%nat) fac with None => nth k exps 0%Z | Some f => exp_of f end) (seq 0 (length names))).
Proof.
  intros NDn. induction fac as [|f fac IH]; intros exps Le Hf ND.
  - cbn [map store_fs find]. f_equal. rewrite <- Le. clear. induction exps as [|z l IH]; [reflexivity|]. cbn [length seq map nth]. f_equal. rewrite <- seq_shift, map_map. exact IH.
  - cbn [map store_fs fac_of fst]. destruct (Hf f (or_introl eq_refl)) as [Hk He]. inversion ND as [|? ? N1 N2]; subst. rewrite (find_name_spec names NDn 0 (fst f) Hk). cbn [Nat.add].
    change (f_exp (fac_of names f)) with (exp_of f). rewrite int32_id by lia. rewrite setz_spec by lia. cbn [obind]. rewrite IH; [|rewrite map_length, seq_length; exact Le|intros g Hg; apply Hf; right; exact Hg|exact N2].
    f_equal. apply map_ext_in. intros k Hk'. apply in_seq in Hk'. cbn [find]. rewrite Le. rewrite (nth_map_seq' _ _ k) by lia. destruct (Nat.eqb_spec (fst f) k) as [E|NE].
    + destruct (find (fun f0 => (fst f0 =? k)%nat) fac) as [g|] eqn:EF; [exfalso; apply find_some in EF as [Hg Eg]; apply Nat.eqb_eq in Eg; apply N1; rewrite E, <- Eg; apply in_map; exact Hg|]. destruct (Nat.eqb_spec k (fst f)); [reflexivity|congruence].
    + destruct (find _ fac); [reflexivity|]. destruct (Nat.eqb_spec k (fst f)); [congruence|reflexivity].
Qed.
(** ** conditions on a system *)
Lemma coef_chars c : number (fst c) -> (forall d, snd c = Some d -> number d) -> forall x, In x (text_coef c) -> special x = false.
Proof.
  destruct c as [n d]. cbn [fst snd]. intros Hn Hd x Hx. unfold text_coef in Hx. cbn [fst snd] in Hx. apply in_app_or in Hx as [Hx|Hx]; [apply (number_special n Hn x Hx)|]. destruct d as [d|]; [|destruct Hx]. destruct Hx as [<-|Hx]; [reflexivity|]. apply (number_special d (Hd d eq_refl) x Hx).
Qed.
Definition coef_fac (c : str * option str) : factor := (text_coef c, None).
Definition term_fs (names : list str) (t : term) : list factor := match t_coef t with None => [] | Some c => [coef_fac c] end ++ map (fac_of names) (t_fac t).
Lemma fs_text names t : map f_text (term_fs names t) = segments names t.
Proof.
  unfold term_fs, segments. rewrite map_app. f_equal; [destruct (t_coef t) as [c|]; [|reflexivity]; unfold coef_fac, f_text; cbn; rewrite app_nil_r; reflexivity|]. rewrite map_map. reflexivity.
Qed.
Lemma exp_ok nv t f : term_ok nv t -> exps_fit t -> In f (t_fac t) -> (0 <= exp_of f < 2 ^ 31)%Z.
Proof.
  intros (_ & _ & H & _) EF Hf. destruct f as [k [d|]]; unfold exp_of; cbn [snd]; [|lia]. destruct (H k (Some d) Hf) as [_ N]. specialize (N d eq_refl). pose proof (dval_pos d N). pose proof (EF k d Hf). lia.
Qed.
Lemma fs_ok names t f : names_ok names -> term_ok (length names) t -> exps_fit t -> In f (term_fs names t) -> f_ok f /\ (f_exp f < 2 ^ 31)%Z.
Proof.
  intros [_ HN] TK EF Hf. pose proof TK as (T1 & T2 & T3 & _). apply in_app_or in Hf as [Hf|Hf].
  - destruct (t_coef t) as [[n d]|] eqn:EC; [|destruct Hf]. destruct Hf as [<-|[]]. destruct (T2 n d eq_refl) as [A B]. split; [|cbn; lia]. split; [apply coef_chars; [exact A|exact B]|]. split; [|discriminate]. cbn. unfold text_coef. cbn [fst]. destruct n; [destruct A; congruence|discriminate].
  - apply in_map_iff in Hf as (g & <- & Hg). pose proof (exp_ok _ t g TK EF Hg). destruct g as [k e]. destruct (T3 k e Hg) as [A B]. split; [|unfold f_exp; cbn [fac_of fst snd] in *; unfold exp_of in *; cbn [snd] in *; lia].
    assert (Nm : name (nth k names [])) by (apply HN, nth_In; exact A). split; [intros c; apply name_chars; exact Nm|]. split; [|exact B]. cbn. destruct Nm as [_ Nm]. destruct (nth k names []); [contradiction|discriminate].
Qed.
Lemma text_coef_noname names c : names_ok names -> number (fst c) -> ~ In (text_coef c) names.
Proof.
  intros [_ HN] Hn H. destruct (HN _ H) as [_ Nd]. destruct c as [[|x n] d]; [destruct Hn as [Hn _]; exfalso; apply Hn; reflexivity|]. cbn in Nd. destruct Hn as [_ Hn]. cbn [forallb fst] in Hn. apply andb_true_iff in Hn as [Hn _]. congruence.
Qed.
Lemma store_ok names t sg tl : names_ok names -> term_ok (length names) t -> exps_fit t -> sgn_ok sg -> tail_ok tl ->
  store_exponent names (sg ++ text_body names t ++ tl) = Some (t_exps (length names) t).
Proof.
  intros HN TK EF Hs Ht. unfold store_exponent, text_body. rewrite <- fs_text. pose proof (loop_ok names tl Ht (term_fs names t) [] sg (repeat 0%Z (length names))) as L. cbn [length app] in L. rewrite L; [clear L| |exact Hs|intros f Hf; apply (fs_ok names t f HN TK EF Hf)].
  2: { destruct TK as ([T|T] & _); unfold term_fs; [destruct (t_coef t); [discriminate|congruence]|]. destruct (t_fac t); [congruence|]. destruct (t_coef t); discriminate. }
  pose proof HN as [ND _]. pose proof TK as (_ & T2 & T3 & T4). assert (R : store_fs names (map (fac_of names) (t_fac t)) (repeat 0%Z (length names)) = Some (t_exps (length names) t)).
  { rewrite (store_facs names ND); [|apply repeat_length| |exact T4].
    - f_equal. apply map_ext. intros k. destruct (find _ (t_fac t)) as [[? [d|]]|]; try reflexivity. apply nth_repeat.
    - intros f Hf. split; [|apply (exp_ok _ t f TK EF Hf)]. destruct f as [k e]. apply (T3 k e Hf). }
  unfold term_fs. destruct (t_coef t) as [[n d]|] eqn:EC; [|exact R]. cbn [app store_fs coef_fac fst]. rewrite (find_name_none names); [exact R|]. apply text_coef_noname; [exact HN|]. exact (proj1 (T2 n d eq_refl)).
Qed.

(** * Splitting a line into terms *)
Lemma index_split c b post : ~ In c b -> index c (b ++ post) = match index c post with Some k => Some (length b + k) | None => None end.
Proof. apply index_later. Qed.
Lemma get_term_ok pre sg b post prev : ((pre = [] /\ prev = 0 /\ (sg = [] \/ sg = ["-"%char])) \/ (pre <> [] /\ prev = S (length pre) /\ length sg = 1)) ->
  ~ In "+"%char b -> ~ In "-"%char b -> b <> [] -> (post = [] \/ exists r, post = "+"%char :: r \/ post = "-"%char :: r) -> (Z.of_nat (length sg + length b) + 1 < 50000)%Z ->
  get_term (pre ++ sg ++ b ++ post) prev = Some (sg ++ b, match post with [] => prev | _ => S (length pre + length sg + length b) end).
Proof.
  intros Hc N1 N2 Nb Hp Sz. set (line := pre ++ sg ++ b ++ post). set (o := length pre + length sg). assert (Lb : 1 <= length b) by (destruct b; [congruence|cbn; lia]).
  assert (ST : match prev with 0 => 0 | S q => q end = length pre) by (destruct Hc as [(-> & -> & _)|(_ & -> & _)]; reflexivity).
  set (A := fun c => match index c post with Some k => Some (o + length b + k) | None => None end).
  assert (AP : strchr line prev "+" = A "+"%char).
  { unfold strchr, A, o. destruct Hc as [(-> & -> & Hs)|(Np & -> & Ls)].
    - cbn [skipn length app]. unfold line. cbn [app]. rewrite app_assoc. rewrite index_later. 2: { intros H. apply in_app_or in H as [H|H]; [|contradiction]. destruct Hs as [->| ->]; cbn in H; intuition discriminate. }
      rewrite app_length. destruct (index "+" post); reflexivity.
    - destruct sg as [|s [|? ?]]; try discriminate Ls. unfold line. replace (S (length pre)) with (length (pre ++ [s])) by (rewrite app_length; cbn; lia). rewrite app_assoc, skipn_len, (index_later _ _ _ N1), app_length. cbn [length]. destruct (index "+" post); cbn [obind]; [f_equal; lia|reflexivity]. }
  assert (AM : match strchr line prev "-" with Some 0 => strchr line (S prev) "-" | _ => strchr line prev "-" end = A "-"%char).
  { unfold strchr, A, o. destruct Hc as [(-> & -> & [->| ->])|(Np & -> & Ls)].
    - cbn [skipn length app]. unfold line. cbn [app]. rewrite (index_later _ _ _ N2). destruct (index "-" post) as [k|]; cbn [obind Nat.add]; [|reflexivity]. destruct (length b + k) eqn:E; [lia|reflexivity].
    - unfold line. cbn [app skipn index length]. rewrite Ascii.eqb_refl. cbn [obind Nat.add]. rewrite (index_later _ _ _ N2). destruct (index "-" post) as [k|]; reflexivity.
    - destruct sg as [|s [|? ?]]; try discriminate Ls. unfold line. replace (S (length pre)) with (length (pre ++ [s])) by (rewrite app_length; cbn; lia). rewrite app_assoc, skipn_len, (index_later _ _ _ N2), app_length. cbn [length]. destruct (index "-" post) as [k|]; cbn [obind]; [|reflexivity]. replace (length pre + 1 + (length b + k)) with (S (length pre + (length b + k))) by lia. f_equal. lia. }
  unfold get_term. rewrite AP, AM, ST.
  assert (TK : post <> [] -> take_term line (length pre) (o + length b + 0) = Some (sg ++ b, S (o + length b))).
  { intros _. unfold take_term, o. rewrite (proj2 (Z.ltb_lt _ _)) by lia. unfold line. rewrite skipn_len. replace (length pre + length sg + length b + 0 - length pre) with (length (sg ++ b)) by (rewrite app_length; lia). rewrite app_assoc, firstn_len. do 2 f_equal. f_equal. lia. }
  destruct Hp as [->|(r & [->| ->])].
  - unfold A. cbn [index]. unfold line. rewrite (proj2 (Z.ltb_lt _ _)) by (rewrite !app_length; cbn [length]; lia). rewrite skipn_len, app_nil_r. reflexivity.
  - assert (EA : A "+"%char = Some (o + length b + 0)) by reflexivity. rewrite EA, TK by discriminate. assert (EM : A "-"%char = match index "-" r with Some k => Some (o + length b + S k) | None => None end) by (unfold A; cbn [index]; change (Ascii.eqb "+" "-") with false; cbn iota; destruct (index "-" r); reflexivity).
    rewrite EM. destruct (index "-" r) as [k|]; [|reflexivity]. rewrite (proj2 (Nat.ltb_ge _ _)) by lia. reflexivity.
  - assert (EA : A "-"%char = Some (o + length b + 0)) by reflexivity. rewrite EA. assert (EM : A "+"%char = match index "+" r with Some k => Some (o + length b + S k) | None => None end) by (unfold A; cbn [index]; change (Ascii.eqb "-" "+") with false; cbn iota; destruct (index "+" r); reflexivity).
    rewrite EM, TK by discriminate. destruct (index "+" r) as [k|]; [|reflexivity]. rewrite (proj2 (Nat.ltb_lt _ _)) by (unfold o; lia). reflexivity.
Qed.
(** ** the characters of a term *)
Lemma join_in c l x : In x (join c l) -> x = c \/ exists s, In s l /\ In x s.
Proof.
  induction l as [|s l IH]; intros H; [destruct H|]. destruct l as [|s' l]; [right; exists s; split; [left; reflexivity|exact H]|]. change (join c (s :: s' :: l)) with (s ++ c :: join c (s' :: l)) in H. apply in_app_or in H as [H|[H|H]]; [right; exists s; split; [left; reflexivity|exact H]|left; symmetry; exact H|]. destruct (IH H) as [E|(u & Hu & Hx)]; [left; exact E|right; exists u; split; [right; exact Hu|exact Hx]].
Qed.
Lemma f_chars f x : f_ok f -> In x (f_text f) -> special x = false \/ x = "^"%char.
Proof. intros (A & _ & C) H. apply in_app_or in H as [H|H]; [left; apply A, H|]. destruct (snd f) as [d|]; [|destruct H]. destruct H as [<-|H]; [right; reflexivity|left; apply (number_special d (C d eq_refl) x H)]. Qed.
Lemma body_chars names t x : names_ok names -> term_ok (length names) t -> exps_fit t -> In x (text_body names t) -> special x = false \/ x = "^"%char \/ x = "*"%char.
Proof.
  intros HN TK EF H. unfold text_body in H. rewrite <- fs_text in H. apply join_in in H as [->|(s & Hs & Hx)]; [auto|]. apply in_map_iff in Hs as (f & <- & Hf). destruct (f_chars f x (proj1 (fs_ok names t f HN TK EF Hf)) Hx); auto.
Qed.
Lemma body_not names t x : names_ok names -> term_ok (length names) t -> exps_fit t -> In x ["+"; "-"; ","]%char -> ~ In x (text_body names t).
Proof.
  intros HN TK EF Hx H. destruct (body_chars names t x HN TK EF H) as [E|[E|E]]; cbn in Hx; destruct Hx as [<-|[<-|[<-|[]]]]; discriminate E.
Qed.
Lemma body_coef names t c : t_coef t = Some c -> exists r, text_body names t = text_coef c ++ r /\ (r = [] \/ exists r', r = "*"%char :: r').
Proof.
  intros E. unfold text_body, segments. rewrite E. cbn [app]. destruct (map (text_fac names) (t_fac t)) as [|s l]; [exists []; split; [cbn; rewrite app_nil_r; reflexivity|left; reflexivity]|]. exists ("*"%char :: join "*" (s :: l)). split; [reflexivity|right; eexists; reflexivity].
Qed.
Lemma body_nocoef names t : names_ok names -> term_ok (length names) t -> t_coef t = None -> exists c r, text_body names t = c :: r /\ is_digit c = false /\ special c = false.
Proof.
  intros [_ HN] (T1 & _ & T3 & _) E. destruct T1 as [T1|T1]; [congruence|]. unfold text_body, segments. rewrite E. cbn [app]. destruct (t_fac t) as [|[k e] fac]; [congruence|]. destruct (T3 k e (or_introl eq_refl)) as [Hk _]. assert (Nm : name (nth k names [])) by (apply HN, nth_In; exact Hk).
  pose proof Nm as [_ Nd]. cbn [map]. unfold text_fac at 1. cbn [fst]. destruct (nth k names []) as [|c v] eqn:EN; [destruct Nd|]. exists c. assert (Sc : special c = false) by (apply (name_chars _ c Nm); left; reflexivity).
  destruct (map (text_fac names) fac) as [|s l]; [eexists; split; [reflexivity|split; [exact Nd|exact Sc]]|]. eexists. split; [reflexivity|split; [exact Nd|exact Sc]].
Qed.
Lemma body_nonempty names t : names_ok names -> term_ok (length names) t -> text_body names t <> [].
Proof.
  intros HN TK. destruct (t_coef t) as [c|] eqn:E.
  - destruct (body_coef names t c E) as (r & -> & _). pose proof TK as (_ & T2 & _). destruct c as [n d]. destruct (T2 n d E) as [[Nn _] _]. unfold text_coef. cbn [fst]. destruct n; [congruence|discriminate].
  - destruct (body_nocoef names t HN TK E) as (c & r & -> & _). discriminate.
Qed.

(** ** the terms of a line *)
Fixpoint tail_texts (names : list str) (P : list term) (tl : str) : list str :=
  match P with [] => [] | [t] => [text_term names t ++ tl] | t :: P' => text_term names t :: tail_texts names P' tl end.
Definition term_texts (names : list str) (P : list term) (tl : str) : list str :=
  match P with [] => [] | [t] => [text_first names t ++ tl] | t :: P' => text_first names t :: tail_texts names P' tl end.
Lemma tail_not tl x : tail_ok tl -> In x ["+"; "-"]%char -> ~ In x tl.
Proof. intros [->| ->] Hx H; cbn in Hx, H; [contradiction|]. destruct H as [<-|[]]. intuition discriminate. Qed.
Lemma post_ok names P : concat (map (text_term names) P) = [] \/ exists r, concat (map (text_term names) P) = "+"%char :: r \/ concat (map (text_term names) P) = "-"%char :: r.
Proof. destruct P as [|t P]; [left; reflexivity|]. right. cbn [map concat]. unfold text_term at 1 3. destruct (t_neg t); eexists; [right|left]; reflexivity. Qed.
Lemma get_tail names tl : names_ok names -> tail_ok tl -> forall P pre, pre <> [] -> P <> [] -> (forall t, In t P -> good names t) ->
  get_terms (length P) (pre ++ concat (map (text_term names) P) ++ tl) (S (length pre)) = Some (tail_texts names P tl).
Proof.
  intros HN Ht. induction P as [|t P IH]; intros pre Np NP HP; [congruence|]. destruct (HP t (or_introl eq_refl)) as (TK & EF & SH). set (s := (if t_neg t then "-" else "+")%char). assert (Eb : forall x, In x ["+"; "-"; ","]%char -> ~ In x (text_body names t)) by (intros x; apply body_not; auto).
  pose proof (body_nonempty names t HN TK) as Nb. unfold short, text_term in SH. cbn [length] in SH. destruct P as [|t' P].
  - cbn [length get_terms map concat tail_texts]. unfold text_term at 1 2. fold s. rewrite app_nil_r. pose proof (get_term_ok pre [s] (text_body names t ++ tl) [] (S (length pre))) as G. rewrite app_nil_r in G. change (pre ++ (s :: text_body names t) ++ tl) with (pre ++ [s] ++ text_body names t ++ tl). rewrite G; [reflexivity|right; auto|..].
    + intros H. apply in_app_or in H as [H|H]; [revert H; apply Eb; cbn; auto|revert H; apply tail_not; [exact Ht|cbn; auto]].
    + intros H. apply in_app_or in H as [H|H]; [revert H; apply Eb; cbn; auto|revert H; apply tail_not; [exact Ht|cbn; auto]].
    + destruct (text_body names t); [congruence|discriminate].
    + left; reflexivity.
    + rewrite app_length. assert (length tl <= 1) by (destruct Ht as [->| ->]; cbn; lia). cbn [length]. lia.
  - set (P' := t' :: P) in *. change (length (t :: P')) with (S (length P')). cbn [get_terms]. change (concat (map (text_term names) (t :: P'))) with ((s :: text_body names t) ++ concat (map (text_term names) P')). change (tail_texts names (t :: P') tl) with (text_term names t :: tail_texts names P' tl).
    set (post := concat (map (text_term names) P') ++ tl). replace (pre ++ ((s :: text_body names t) ++ concat (map (text_term names) P')) ++ tl) with (pre ++ [s] ++ text_body names t ++ post) by (unfold post; cbn [app]; rewrite <- !app_assoc; reflexivity).
    assert (PO : exists r, post = "+"%char :: r \/ post = "-"%char :: r) by (unfold post, P'; cbn [map concat]; unfold text_term at 1 3; destruct (t_neg t'); eexists; [right|left]; reflexivity).
    rewrite get_term_ok; [|right; auto|apply Eb; cbn; auto|apply Eb; cbn; auto|exact Nb|right; exact PO|cbn [length]; lia]. cbn [obind fst snd].
    replace (match post with [] => S (length pre) | _ :: _ => S (length pre + length [s] + length (text_body names t)) end) with (S (length (pre ++ text_term names t))) by (destruct PO as (r & [-> | ->]); unfold text_term; rewrite app_length; cbn [length]; lia).
    replace (pre ++ [s] ++ text_body names t ++ post) with ((pre ++ text_term names t) ++ concat (map (text_term names) P') ++ tl) by (unfold post, text_term; rewrite <- !app_assoc; reflexivity).
    rewrite IH; [reflexivity|destruct pre; [congruence|discriminate]|discriminate|intros u Hu; apply HP; right; exact Hu].
Qed.
Lemma get_all names tl P : names_ok names -> tail_ok tl -> P <> [] -> (forall t, In t P -> good names t) ->
  get_terms (length P) (text_poly names P ++ tl) 0 = Some (term_texts names P tl).
Proof.
  intros HN Ht NP HP. destruct P as [|t P]; [congruence|]. destruct (HP t (or_introl eq_refl)) as (TK & EF & SH). set (sg := if t_neg t then ["-"%char] else []). assert (Eb : forall x, In x ["+"; "-"; ","]%char -> ~ In x (text_body names t)) by (intros x; apply body_not; auto).
  pose proof (body_nonempty names t HN TK) as Nb. unfold short, text_term in SH. cbn [length] in SH. assert (Hs : sg = [] \/ sg = ["-"%char]) by (unfold sg; destruct (t_neg t); auto). assert (Ls : length sg <= 1) by (destruct Hs as [->| ->]; cbn; lia). destruct P as [|t' P].
  - cbn [length get_terms text_poly map concat term_texts]. unfold text_first at 1 2. fold sg. rewrite app_nil_r, <- !app_assoc. pose proof (get_term_ok [] sg (text_body names t ++ tl) [] 0) as G. rewrite app_nil_r in G. cbn [app] in G. rewrite G; [reflexivity|left; auto|..].
    + intros H. apply in_app_or in H as [H|H]; [revert H; apply Eb; cbn; auto|revert H; apply tail_not; [exact Ht|cbn; auto]].
    + intros H. apply in_app_or in H as [H|H]; [revert H; apply Eb; cbn; auto|revert H; apply tail_not; [exact Ht|cbn; auto]].
    + destruct (text_body names t); [congruence|discriminate].
    + left; reflexivity.
    + rewrite app_length. assert (length tl <= 1) by (destruct Ht as [->| ->]; cbn; lia). lia.
  - set (P' := t' :: P) in *. change (length (t :: P')) with (S (length P')). cbn [get_terms]. change (text_poly names (t :: P')) with (text_first names t ++ concat (map (text_term names) P')). change (term_texts names (t :: P') tl) with (text_first names t :: tail_texts names P' tl).
    set (post := concat (map (text_term names) P') ++ tl). replace ((text_first names t ++ concat (map (text_term names) P')) ++ tl) with ([] ++ sg ++ text_body names t ++ post) by (unfold post, text_first; fold sg; cbn [app]; rewrite <- !app_assoc; reflexivity).
    assert (PO : exists r, post = "+"%char :: r \/ post = "-"%char :: r) by (unfold post, P'; cbn [map concat]; unfold text_term at 1 3; destruct (t_neg t'); eexists; [right|left]; reflexivity).
    rewrite get_term_ok; [|left; auto|apply Eb; cbn; auto|apply Eb; cbn; auto|exact Nb|right; exact PO|lia]. cbn [obind fst snd].
    replace (match post with [] => 0 | _ :: _ => S (length (@nil ascii) + length sg + length (text_body names t)) end) with (S (length (text_first names t))) by (destruct PO as (r & [-> | ->]); unfold text_first; fold sg; rewrite app_length; cbn [length]; lia).
    replace ([] ++ sg ++ text_body names t ++ post) with (text_first names t ++ concat (map (text_term names) P') ++ tl) by (unfold post, text_first; fold sg; rewrite <- !app_assoc; reflexivity).
    rewrite (get_tail names tl HN Ht P'); [reflexivity| |discriminate|intros u Hu; apply HP; right; exact Hu]. unfold text_first. fold sg. destruct sg; [cbn [app]; exact Nb|discriminate].
Qed.
(** ** their number *)
Lemma count_body names t : names_ok names -> term_ok (length names) t -> exps_fit t -> count_char "+" (text_body names t) = 0 /\ count_char "-" (text_body names t) = 0.
Proof. intros HN TK EF. split; apply count_none; apply body_not; auto; cbn; auto. Qed.
Lemma count_tail names P : names_ok names -> (forall t, In t P -> good names t) -> count_char "+" (concat (map (text_term names) P)) + count_char "-" (concat (map (text_term names) P)) = length P.
Proof.
  intros HN. induction P as [|t P IH]; intros HP; [reflexivity|]. cbn [map concat length]. rewrite !count_app. destruct (HP t (or_introl eq_refl)) as (TK & EF & _). destruct (count_body names t HN TK EF) as [A B]. specialize (IH (fun u Hu => HP u (or_intror Hu))).
  assert (E : count_char "+" (text_term names t) + count_char "-" (text_term names t) = 1). { unfold text_term. change ((if t_neg t then "-" else "+")%char :: text_body names t) with ([(if t_neg t then "-" else "+")%char] ++ text_body names t). rewrite !count_app, A, B. destruct (t_neg t); reflexivity. }
  lia.
Qed.
Lemma number_ok names tl P : names_ok names -> tail_ok tl -> P <> [] -> (forall t, In t P -> good names t) -> get_number_of_terms (text_poly names P ++ tl) = length P.
Proof.
  intros HN Ht NP HP. destruct P as [|t P]; [congruence|]. destruct (HP t (or_introl eq_refl)) as (TK & EF & _). destruct (count_body names t HN TK EF) as [A B]. pose proof (count_tail names P HN (fun u Hu => HP u (or_intror Hu))) as CT.
  unfold get_number_of_terms. cbn [text_poly length]. rewrite !count_app. assert (T1 : count_char "+" tl = 0) by (destruct Ht as [->| ->]; reflexivity). assert (T2 : count_char "-" tl = 0) by (destruct Ht as [->| ->]; reflexivity).
  unfold text_first. rewrite !count_app, A, B, T1, T2. destruct (t_neg t).
  - cbn [app skip_blanks]. change (Ascii.eqb "-" " ") with false. cbn iota. change (Ascii.eqb "-" "-") with true. cbn iota. change (count_char "+" ["-"%char]) with 0. change (count_char "-" ["-"%char]) with 1. lia.
  - cbn [app]. change (count_char "+" []) with 0. change (count_char "-" []) with 0. destruct (text_body names t) as [|c r] eqn:E; [exfalso; exact (body_nonempty names t HN TK E)|]. cbn [app skip_blanks].
    assert (Sc : special c = false). { destruct (t_coef t) as [cf|] eqn:EC; [|destruct (body_nocoef names t HN TK EC) as (c' & r' & E' & _ & Q); congruence]. destruct (body_coef names t cf EC) as (r' & E' & _). destruct cf as [n d]. pose proof TK as (_ & K & _). destruct (K n d EC) as [Nn _]. destruct n as [|x n]; [destruct Nn as [Nn _]; congruence|]. unfold text_coef in E'. cbn [fst app] in E'. rewrite E in E'. injection E' as -> _. apply (number_special _ Nn). left. reflexivity. }
    destruct (Ascii.eqb_spec c " "); [subst c; discriminate Sc|]. destruct (Ascii.eqb_spec c "-"); [subst c; discriminate Sc|]. lia.
Qed.

(** * Coefficients modulo p *)
Local Open Scope Z_scope.
Lemma tail_nodigit r tl : (r = [] \/ exists r', r = "*"%char :: r') -> tail_ok tl -> nodigit (r ++ tl).
Proof. intros [->|(r' & ->)] Ht; [destruct Ht as [->| ->]; exact I || reflexivity|reflexivity]. Qed.
Lemma strtol_term names t tl sg : names_ok names -> term_ok (length names) t -> tail_ok tl -> sg = (if t_neg t then ["-"%char] else []) \/ sg = [if t_neg t then "-"%char else "+"%char] -> (forall n d, t_coef t = Some (n, d) -> d = None /\ dval n < 2 ^ 63) ->
  strtol (sg ++ text_body names t ++ tl) = match t_coef t with None => 0 | Some _ => t_num t end.
Proof.
  intros HN TK Ht Hs HC. unfold t_num, t_sign. destruct (t_coef t) as [[n d]|] eqn:EC.
  - destruct (HC n d eq_refl) as [-> L]. destruct (body_coef names t _ EC) as (r & -> & Hr). unfold text_coef. cbn [fst snd]. rewrite app_nil_r, <- app_assoc. pose proof (tail_nodigit r tl Hr Ht) as ND. pose proof TK as (_ & K & _). destruct (K n None EC) as [Nn _]. pose proof (dval_pos n Nn).
    destruct (t_neg t); destruct Hs as [->| ->]; cbn [app]; [rewrite strtol_minus by auto|rewrite strtol_minus by auto|rewrite strtol_plain by auto|rewrite strtol_plus by auto]; rewrite clip_id by lia; lia.
  - destruct (body_nocoef names t HN TK EC) as (c & r & -> & Dc & Sc). assert (NS : is_space c = false) by (unfold special in Sc; apply orb_false_iff in Sc; apply Sc).
    assert (C1 : Ascii.eqb c "-" = false) by (apply Ascii.eqb_neq; intros ->; discriminate Sc). assert (C2 : Ascii.eqb c "+" = false) by (apply Ascii.eqb_neq; intros ->; discriminate Sc).
    assert (RN : read_digits 0 ((c :: r) ++ tl) = 0) by (apply read_none; exact Dc).
    assert (Q : sg = [] \/ sg = ["-"%char] \/ sg = ["+"%char]) by (destruct (t_neg t), Hs as [->| ->]; auto). destruct Q as [->|[->| ->]]; unfold strtol; cbn [app drop_space].
    + rewrite NS, C1, C2. cbn [app] in RN. rewrite RN. reflexivity.
    + change (is_space "-") with false. cbn iota. rewrite Ascii.eqb_refl. cbn [app] in RN. rewrite RN. reflexivity.
    + change (is_space "+") with false. cbn iota. change (Ascii.eqb "+" "-") with false. cbn iota. rewrite Ascii.eqb_refl. cbn [app] in RN. rewrite RN. reflexivity.
Qed.
Lemma lift_ok p z : 0 < p -> 0 <= lift_p p z /\ (p | lift_p p z - z) /\ (0 <= z -> lift_p p z = z) /\ (z < 0 -> lift_p p z < p).
Proof.
  intros Hp. unfold lift_p. destruct (z <? 0) eqn:E; [apply Z.ltb_lt in E|apply Z.ltb_ge in E].
  - pose proof (Z.mod_pos_bound z p Hp). repeat split; try lia. exists (- (z / p)). pose proof (Z.div_mod z p). lia.
  - repeat split; try lia. exists 0. lia.
Qed.
Lemma zero_char n : number n -> dval n = 0 -> exists r, n = "0"%char :: r.
Proof.
  intros [N H] E. destruct n as [|c n]; [congruence|]. cbn [forallb] in H. apply andb_true_iff in H as [Hc H]. exists n. f_equal. unfold dval in E. cbn [fold_left] in E.
  assert (G : forall l a, 0 <= a -> forallb is_digit l = true -> a <= fold_left (fun a c => 10 * a + digit c) l a). { induction l as [|x l IH]; intros a Ha Hl; [cbn; lia|]. cbn [forallb fold_left] in *. apply andb_true_iff in Hl as [Hx Hl]. assert (0 <= digit x) by (unfold is_digit in Hx; unfold digit; apply andb_true_iff in Hx as [Hx _]; apply Nat.leb_le in Hx; lia). specialize (IH (10 * a + digit x) ltac:(lia) Hl). lia. }
  pose proof Hc as Hc'. unfold is_digit in Hc. apply andb_true_iff in Hc as [H1 H2]. apply Nat.leb_le in H1, H2. assert (0 <= digit c) by (unfold digit; lia). specialize (G n (10 * 0 + digit c) ltac:(lia) H). assert (nat_of_ascii c = 48%nat) by (unfold digit in *; lia).
  rewrite <- (ascii_nat_embedding c). rewrite H3. reflexivity.
Qed.
Lemma first_ff_ok names t tl p : names_ok names -> term_ok (length names) t -> tail_ok tl -> ff_first t -> 0 < p < 2 ^ 31 ->
  0 <= first_ff p (text_first names t ++ tl) < 2 ^ 31 /\ (p | first_ff p (text_first names t ++ tl) - t_num t).
Proof.
  intros HN TK Ht HF Hp. unfold first_ff, text_first. rewrite <- app_assoc. set (sg := if t_neg t then ["-"%char] else []). rewrite (strtol_term names t tl sg HN TK Ht); [|left; reflexivity|intros n d E; destruct (HF n d E) as (A & B & _); split; [exact A|lia]].
  destruct (t_coef t) as [[n d]|] eqn:EC.
  - destruct (HF n d EC) as (-> & B & C). pose proof TK as (_ & K & _). destruct (K n None EC) as [Nn _]. pose proof (dval_pos n Nn) as P0. assert (R : - 2 ^ 31 <= t_num t < 2 ^ 31) by (unfold t_num, t_sign; rewrite EC; destruct (t_neg t); lia). rewrite int32_id by exact R.
    destruct (t_num t =? 0) eqn:E0; [apply Z.eqb_eq in E0|apply Z.eqb_neq in E0].
    + assert (D0 : dval n = 0) by (unfold t_num, t_sign in E0; rewrite EC in E0; destruct (t_neg t); lia). destruct (zero_char n Nn D0) as (r & ->). destruct (body_coef names t _ EC) as (r' & -> & _). unfold sg. rewrite (C D0). cbn. rewrite E0. split; [lia|exists 0; lia].
    + destruct (lift_ok p (t_num t) (proj1 Hp)) as (L1 & L2 & L3 & L4). split; [|exact L2]. split; [exact L1|]. destruct (Z.lt_ge_cases (t_num t) 0) as [Q|Q]; [specialize (L4 Q); lia|rewrite (L3 Q); lia].
  - change (int32 0) with 0. rewrite Z.eqb_refl. destruct (body_nocoef names t HN TK EC) as (c & r & -> & Dc & Sc). unfold t_num, t_sign. rewrite EC. unfold sg. destruct (t_neg t).
    + change (char_at (["-"%char] ++ (c :: r) ++ tl) 0 "0") with false. change (char_at (["-"%char] ++ (c :: r) ++ tl) 0 "-") with true. cbn iota. destruct (lift_ok p (-1) (proj1 Hp)) as (L1 & L2 & L3 & L4). split; [specialize (L4 ltac:(lia)); lia|exact L2].
    + unfold char_at. cbn [app nth_error]. destruct (Ascii.eqb_spec c "0"); [subst c; discriminate Dc|]. destruct (Ascii.eqb_spec c "-"); [subst c; discriminate Sc|]. destruct (lift_ok p 1 (proj1 Hp)) as (L1 & L2 & L3 & L4). rewrite L3 by lia. split; [lia|exists 0; lia].
Qed.
Lemma next_ff_ok names t tl p : names_ok names -> term_ok (length names) t -> tail_ok tl -> ff_next t -> 0 < p < 2 ^ 31 ->
  0 <= next_ff p (text_term names t ++ tl) < 2 ^ 31 /\ (p | next_ff p (text_term names t ++ tl) - t_num t).
Proof.
  intros HN TK Ht HF Hp. unfold next_ff, text_term. set (sg := [if t_neg t then "-"%char else "+"%char]). change (((if t_neg t then "-" else "+")%char :: text_body names t) ++ tl) with (sg ++ text_body names t ++ tl). rewrite (strtol_term names t tl sg HN TK Ht); [|right; reflexivity|intros n d E; destruct (HF n d E) as (A & B); split; [exact A|lia]].
  assert (E : (if match t_coef t with Some _ => t_num t | None => 0 end =? 0 then if char_at (sg ++ text_body names t ++ tl) 0 "-" then -1 else 1 else match t_coef t with Some _ => t_num t | None => 0 end) = t_num t).
  { destruct (t_coef t) as [[n d]|] eqn:EC.
    - destruct (HF n d EC) as (-> & B). destruct (t_num t =? 0) eqn:E0; [apply Z.eqb_eq in E0; unfold t_num, t_sign in E0; rewrite EC in E0; destruct (t_neg t); lia|reflexivity].
    - rewrite Z.eqb_refl. unfold t_num, t_sign. rewrite EC. unfold sg, char_at. cbn [app nth_error]. destruct (t_neg t); reflexivity. }
  rewrite E. destruct (lift_ok p (t_num t) (proj1 Hp)) as (L1 & L2 & _). rewrite Z.rem_mod_nonneg by lia. pose proof (Z.mod_pos_bound (lift_p p (t_num t)) p (proj1 Hp)). rewrite int32_id by lia. split; [lia|]. destruct L2 as [k Hk]. exists (k - lift_p p (t_num t) / p). pose proof (Z.div_mod (lift_p p (t_num t)) p). nia.
Qed.

(** * Rational coefficients *)
Lemma before_ok s r tl : (forall c, In c s -> special c = false) -> (r = [] \/ exists r', r = "*"%char :: r') -> tail_ok tl -> before_star (s ++ r ++ tl) = s.
Proof.
  intros Hs Hr Ht. induction s as [|c s IH].
  - cbn [app]. destruct Hr as [->|(r' & ->)]; [destruct Ht as [->| ->]; reflexivity|reflexivity].
  - cbn [app before_star]. pose proof (Hs c (or_introl eq_refl)) as Sc. destruct (Ascii.eqb_spec c "*"); [subst c; discriminate Sc|]. destruct (Ascii.eqb_spec c ","); [subst c; discriminate Sc|]. cbn [orb]. rewrite IH; [reflexivity|intros x Hx; apply Hs; right; exact Hx].
Qed.
Lemma digit_slash n : number n -> ~ In "/"%char n.
Proof. intros [_ H] Hn. rewrite forallb_forall in H. discriminate (H _ Hn). Qed.
Lemma set_int_num n : number n -> set_int n = Some (dval n).
Proof. intros [N H]. destruct n as [|c n]; [congruence|]. unfold set_int. destruct (Ascii.eqb_spec c "-"); [subst c; cbn in H; discriminate H|]. rewrite H. reflexivity. Qed.
Lemma set_int_neg n : number n -> set_int ("-"%char :: n) = Some (- dval n).
Proof. intros [N H]. unfold set_int. rewrite Ascii.eqb_refl. destruct n as [|c n]; [congruence|]. rewrite H. reflexivity. Qed.
Lemma set_rat_ok c (neg : bool) : number (fst c) -> (forall d, snd c = Some d -> number d) ->
  set_rat ((if neg then ["-"%char] else []) ++ text_coef c) = Some ((if neg then -1 else 1) * dval (fst c), match snd c with None => 1 | Some d => dval d end).
Proof.
  destruct c as [n d]. cbn [fst snd]. intros Hn Hd. set (s := (if neg then ["-"%char] else []) ++ n). assert (Ns : ~ In "/"%char s) by (unfold s; intros H; apply in_app_or in H as [H|H]; [destruct neg; cbn in H; intuition discriminate|exact (digit_slash n Hn H)]).
  assert (SI : set_int s = Some ((if neg then -1 else 1) * dval n)) by (unfold s; destruct neg; cbn [app]; [rewrite set_int_neg by exact Hn|rewrite set_int_num by exact Hn]; f_equal; lia).
  unfold set_rat, text_coef. cbn [fst snd]. rewrite app_assoc. fold s. destruct d as [d|].
  - rewrite (index_app "/" s d Ns). rewrite firstn_len, SI. cbn [obind]. replace (S (length s)) with (length (s ++ ["/"%char])) by (rewrite app_length; cbn; lia). change (s ++ "/"%char :: d) with (s ++ ["/"%char] ++ d). rewrite app_assoc, skipn_len, (set_int_num d (Hd d eq_refl)). reflexivity.
  - rewrite app_nil_r, (index_none "/" s Ns), SI. reflexivity.
Qed.
Lemma set_int_bad c r : is_digit c = false -> c <> "-"%char -> set_int (c :: r) = None.
Proof. intros H N. unfold set_int. destruct (Ascii.eqb_spec c "-"); [congruence|]. cbn [forallb]. rewrite H. reflexivity. Qed.
Lemma set_int_bad_neg c r : is_digit c = false -> set_int ("-"%char :: c :: r) = None.
Proof. intros H. unfold set_int. rewrite Ascii.eqb_refl. cbn [forallb]. rewrite H. reflexivity. Qed.
Lemma set_rat_bad c r : is_digit c = false -> c <> "-"%char -> set_rat (c :: r) = None.
Proof. intros H N. unfold set_rat. destruct (index "/" (c :: r)) as [[|k]|]; [reflexivity|cbn [firstn]; rewrite set_int_bad by auto; reflexivity|rewrite set_int_bad by auto; reflexivity]. Qed.
Lemma set_rat_bad_neg c r : is_digit c = false -> set_rat ("-"%char :: c :: r) = None.
Proof. intros H. unfold set_rat. destruct (index "/" ("-"%char :: c :: r)) as [[|[|k]]|]; [reflexivity|reflexivity|cbn [firstn]; rewrite set_int_bad_neg by auto; reflexivity|rewrite set_int_bad_neg by auto; reflexivity]. Qed.
Lemma before_cons c r : special c = false -> before_star (c :: r) = c :: before_star r.
Proof. intros Sc. cbn [before_star]. destruct (Ascii.eqb_spec c "*"); [subst c; discriminate Sc|]. destruct (Ascii.eqb_spec c ","); [subst c; discriminate Sc|]. reflexivity. Qed.
Lemma first_qq_ok names t tl : names_ok names -> term_ok (length names) t -> tail_ok tl -> first_qq (text_first names t ++ tl) = (t_num t, t_den t).
Proof.
  intros HN TK Ht. unfold first_qq, text_first, t_num, t_den, t_sign. destruct (t_coef t) as [[n d]|] eqn:EC.
  - destruct (body_coef names t _ EC) as (r & -> & Hr). pose proof TK as (_ & K & _). destruct (K n d EC) as [Nn Nd]. rewrite <- app_assoc, <- app_assoc.
    assert (B : before_star ((if t_neg t then ["-"%char] else []) ++ text_coef (n, d) ++ r ++ tl) = (if t_neg t then ["-"%char] else []) ++ text_coef (n, d)). { pose proof (before_ok (text_coef (n, d)) r tl (coef_chars (n, d) Nn Nd) Hr Ht) as B. destruct (t_neg t); cbn [app]; [cbn [before_star]; rewrite B; reflexivity|exact B]. }
    rewrite B, (set_rat_ok (n, d) (t_neg t) Nn Nd). cbn [fst snd]. destruct d; reflexivity.
  - destruct (body_nocoef names t HN TK EC) as (c & r & -> & Dc & Sc). destruct (t_neg t).
    + change ((["-"%char] ++ c :: r) ++ tl) with ("-"%char :: c :: r ++ tl). change (before_star ("-"%char :: c :: r ++ tl)) with ("-"%char :: before_star (c :: r ++ tl)). rewrite (before_cons c _ Sc), (set_rat_bad_neg c _ Dc). reflexivity.
    + change (([] ++ c :: r) ++ tl) with (c :: r ++ tl). rewrite (before_cons c _ Sc). rewrite set_rat_bad; [|exact Dc|intros ->; discriminate Sc]. unfold char_at. cbn [nth_error]. destruct (Ascii.eqb_spec c "-"); [subst c; discriminate Sc|reflexivity].
Qed.
Lemma next_qq_ok names t tl : names_ok names -> term_ok (length names) t -> tail_ok tl -> next_qq (text_term names t ++ tl) = Some (t_num t, t_den t).
Proof.
  intros HN TK Ht. unfold next_qq, text_term, t_num, t_den, t_sign. set (s := (if t_neg t then "-" else "+")%char). assert (BS : forall w, before_star ((s :: w) ++ tl) = s :: before_star (w ++ tl)) by (intros w; unfold s; destruct (t_neg t); reflexivity). rewrite BS.
  assert (CA : char_at ((s :: text_body names t) ++ tl) 0 "-" = t_neg t) by (unfold char_at, s; cbn [app nth_error]; destruct (t_neg t); reflexivity). rewrite CA. destruct (t_coef t) as [[n d]|] eqn:EC.
  - destruct (body_coef names t _ EC) as (r & -> & Hr). pose proof TK as (_ & K & _). destruct (K n d EC) as [Nn Nd]. rewrite <- app_assoc, (before_ok _ r tl (coef_chars (n, d) Nn Nd) Hr Ht). pose proof (set_rat_ok (n, d) false Nn Nd) as SR. cbn [app] in SR. rewrite SR. cbn [fst snd]. destruct (t_neg t), d; do 2 f_equal; lia.
  - destruct (body_nocoef names t HN TK EC) as (c & r & -> & Dc & Sc). cbn [app]. rewrite (before_cons c _ Sc). rewrite set_rat_bad; [|exact Dc|intros ->; discriminate Sc]. destruct (t_neg t); reflexivity.
Qed.

(** * One generator *)
Lemma exps_tail names tl : names_ok names -> tail_ok tl -> forall P, (forall t, In t P -> good names t) -> omap (store_exponent names) (tail_texts names P tl) = Some (map (t_exps (length names)) P).
Proof.
  intros HN Ht. induction P as [|t P IH]; intros HP; [reflexivity|]. destruct (HP t (or_introl eq_refl)) as (TK & EF & _). specialize (IH (fun u Hu => HP u (or_intror Hu))). assert (SG : sgn_ok [if t_neg t then "-"%char else "+"%char]) by (unfold sgn_ok; destruct (t_neg t); auto). destruct P as [|t' P].
  - cbn [tail_texts omap map]. pose proof (store_ok names t _ tl HN TK EF SG Ht) as St. cbn [app] in St. unfold text_term. cbn [app]. rewrite St. reflexivity.
  - set (P' := t' :: P) in *. change (tail_texts names (t :: P') tl) with (text_term names t :: tail_texts names P' tl). cbn [omap map]. pose proof (store_ok names t _ [] HN TK EF SG (or_introl eq_refl)) as St. rewrite app_nil_r in St. change ([if t_neg t then "-"%char else "+"%char] ++ text_body names t) with (text_term names t) in St. rewrite St. cbn [obind]. rewrite IH. reflexivity.
Qed.
Lemma exps_all names tl P : names_ok names -> tail_ok tl -> (forall t, In t P -> good names t) -> omap (store_exponent names) (term_texts names P tl) = Some (map (t_exps (length names)) P).
Proof.
  intros HN Ht HP. destruct P as [|t P]; [reflexivity|]. destruct (HP t (or_introl eq_refl)) as (TK & EF & _). assert (SG : sgn_ok (if t_neg t then ["-"%char] else [])) by (unfold sgn_ok; destruct (t_neg t); auto). destruct P as [|t' P].
  - cbn [term_texts omap map]. assert (St : store_exponent names (text_first names t ++ tl) = Some (t_exps (length names) t)) by (unfold text_first; rewrite <- app_assoc; exact (store_ok names t _ tl HN TK EF SG Ht)). rewrite St. reflexivity.
  - set (P' := t' :: P) in *. change (term_texts names (t :: P') tl) with (text_first names t :: tail_texts names P' tl). cbn [omap map]. pose proof (store_ok names t _ [] HN TK EF SG (or_introl eq_refl)) as St. rewrite app_nil_r in St. change (store_exponent names (text_first names t) = Some (t_exps (length names) t)) in St. rewrite St. cbn [obind]. rewrite exps_tail; [reflexivity|exact HN|exact Ht|]. intros u Hu. apply HP. right. exact Hu.
Qed.
Lemma tail_cons names t P tl : exists tl', tail_texts names (t :: P) tl = (text_term names t ++ tl') :: tail_texts names P tl /\ (tl' = [] \/ tl' = tl).
Proof. destruct P as [|t' P]; [exists tl; auto|]. exists []. rewrite app_nil_r. auto. Qed.
Lemma texts_cons names t P tl : exists tl', term_texts names (t :: P) tl = (text_first names t ++ tl') :: tail_texts names P tl /\ (tl' = [] \/ tl' = tl).
Proof. destruct P as [|t' P]; [exists tl; auto|]. exists []. rewrite app_nil_r. auto. Qed.
Lemma tail_ok' tl tl' : tail_ok tl -> tl' = [] \/ tl' = tl -> tail_ok tl'.
Proof. intros H [->| ->]; [left; reflexivity|exact H]. Qed.
Lemma line_ff names p P tl : names_ok names -> tail_ok tl -> P <> [] -> (forall t, In t P -> good names t) -> poly_ff P -> 0 < p < 2 ^ 31 ->
  exists R, read_line names p (text_poly names P ++ tl) = Some R /\ Forall2 (row_ff (length names) p) P R.
Proof.
  intros HN Ht NP HP HF Hp. unfold read_line. rewrite (number_ok names tl P HN Ht NP HP), (get_all names tl P HN Ht NP HP). cbn [obind]. rewrite (exps_all names tl P HN Ht HP). destruct P as [|t P]; [congruence|]. destruct HF as [F1 F2].
  destruct (texts_cons names t P tl) as (tl' & -> & Ht'). apply (tail_ok' tl) in Ht'; [|exact Ht]. cbn [coefs]. rewrite (proj2 (Z.eqb_neq p 0)) by lia. cbn [obind map combine]. eexists. split; [reflexivity|]. destruct (HP t (or_introl eq_refl)) as (TK & _ & _).
  destruct (first_ff_ok names t tl' p HN TK Ht' F1 Hp) as [A B]. constructor; [unfold row_ff; cbn [fst snd]; auto|]. assert (HP' : forall u, In u P -> good names u) by (intros u Hu; apply HP; right; exact Hu). clear HP TK NP F1. induction P as [|u P IH]; [constructor|].
  destruct (tail_cons names u P tl) as (tl2 & -> & Ht2). apply (tail_ok' tl) in Ht2; [|exact Ht]. cbn [map combine]. destruct (HP' u (or_introl eq_refl)) as (TK & _ & _). destruct (next_ff_ok names u tl2 p HN TK Ht2 (F2 u (or_introl eq_refl)) Hp) as [A2 B2]. constructor; [unfold row_ff; cbn [fst snd]; auto|]. apply IH; [intros v Hv; apply F2; right; exact Hv|intros v Hv; apply HP'; right; exact Hv].
Qed.
Lemma line_qq names P tl : names_ok names -> tail_ok tl -> P <> [] -> (forall t, In t P -> good names t) ->
  exists R, read_line names 0 (text_poly names P ++ tl) = Some R /\ Forall2 (row_qq (length names)) P R.
Proof.
  intros HN Ht NP HP. unfold read_line. rewrite (number_ok names tl P HN Ht NP HP), (get_all names tl P HN Ht NP HP). cbn [obind]. rewrite (exps_all names tl P HN Ht HP). destruct P as [|t P]; [congruence|].
  destruct (texts_cons names t P tl) as (tl' & -> & Ht'). apply (tail_ok' tl) in Ht'; [|exact Ht]. cbn [coefs]. rewrite Z.eqb_refl. destruct (HP t (or_introl eq_refl)) as (TK & _ & _). rewrite (first_qq_ok names t tl' HN TK Ht').
  assert (HP' : forall u, In u P -> good names u) by (intros u Hu; apply HP; right; exact Hu). assert (N : omap next_qq (tail_texts names P tl) = Some (map (fun t => (t_num t, t_den t)) P)).
  { clear HP TK NP. induction P as [|u P IH]; [reflexivity|]. destruct (tail_cons names u P tl) as (tl2 & -> & Ht2). apply (tail_ok' tl) in Ht2; [|exact Ht]. destruct (HP' u (or_introl eq_refl)) as (TK & _ & _). cbn [omap map]. rewrite (next_qq_ok names u tl2 HN TK Ht2). cbn [obind]. rewrite IH; [reflexivity|intros v Hv; apply HP'; right; exact Hv]. }
  rewrite N. cbn [obind map combine]. eexists. split; [reflexivity|]. constructor; [reflexivity|]. clear. induction P as [|u P IH]; [constructor|]. cbn [map combine]. constructor; [reflexivity|exact IH].
Qed.

(** * Files *)
Local Close Scope Z_scope.
Lemma pieces_cut c a r cur : ~ In c a -> pieces c (a ++ c :: r) cur = (rev cur ++ a ++ [c]) :: pieces c r [].
Proof.
  revert cur. induction a as [|x a IH]; intros cur H.
  - cbn [app pieces]. rewrite Ascii.eqb_refl. reflexivity.
  - cbn [app pieces]. destruct (Ascii.eqb_spec x c) as [->|N]; [exfalso; apply H; left; reflexivity|]. rewrite IH by (intros Q; apply H; right; exact Q). cbn [rev]. rewrite <- app_assoc. reflexivity.
Qed.
Lemma pieces_last c a cur : ~ In c a -> a <> [] -> pieces c a cur = [rev cur ++ a].
Proof.
  revert cur. induction a as [|x a IH]; intros cur H N; [congruence|]. cbn [pieces]. destruct (Ascii.eqb_spec x c) as [->|Nx]; [exfalso; apply H; left; reflexivity|]. destruct a as [|y a]; [reflexivity|]. rewrite IH by (try discriminate; intros Q; apply H; right; exact Q). cbn [rev]. rewrite <- app_assoc. reflexivity.
Qed.
Lemma pieces_concat c s cur : concat (pieces c s cur) = rev cur ++ s.
Proof.
  revert cur. induction s as [|x s IH]; intros cur; cbn [pieces].
  - destruct cur; [reflexivity|]. cbn [concat]. reflexivity.
  - destruct (Ascii.eqb x c); [cbn [concat]; rewrite IH; cbn [rev app]; rewrite <- app_assoc; reflexivity|]. rewrite IH. cbn [rev]. rewrite <- app_assoc. reflexivity.
Qed.
Lemma written_app a b : written (a ++ b) = written a || written b.
Proof. unfold written. rewrite forallb_app, negb_andb. reflexivity. Qed.
Definition nwritten (l : list str) : nat := length (filter written l).
Lemma pieces_written s : forall cur, nwritten (pieces nl s cur) = match lines s with l :: ls => nwritten ((rev cur ++ l) :: ls) | [] => 0 end.
Proof.
  induction s as [|x s IH]; intros cur; cbn [pieces lines].
  - destruct cur as [|y cur]; [reflexivity|]. rewrite app_nil_r. reflexivity.
  - destruct (Ascii.eqb_spec x nl) as [->|N].
    + unfold nwritten in *. cbn [filter]. rewrite app_nil_r. cbn [rev]. rewrite written_app. change (written [nl]) with false. rewrite orb_false_r. specialize (IH []). cbn [rev app] in IH. assert (E : length (filter written (pieces nl s [])) = length (filter written (lines s))) by (rewrite IH; destruct (lines s); reflexivity). destruct (written (rev cur)); cbn [length]; rewrite E; reflexivity.
    + rewrite IH. destruct (lines s) as [|l ls] eqn:EL; [exfalso; clear -EL; destruct s as [|y s]; cbn [lines] in EL; [discriminate|destruct (Ascii.eqb y nl); [discriminate|destruct (lines s); discriminate]]|]. cbn [rev]. rewrite <- app_assoc. reflexivity.
Qed.
Lemma ngens_ok body : length (filter written (pieces nl body [])) = length (filter written (lines body)).
Proof. change (nwritten (pieces nl body []) = nwritten (lines body)). rewrite pieces_written. destruct (lines body); reflexivity. Qed.

(** ** the names *)
Lemma drop_space_app a r : forallb is_space a = true -> drop_space (a ++ r) = drop_space r.
Proof. induction a as [|x a IH]; intros H; [reflexivity|]. cbn [forallb] in H. apply andb_true_iff in H as [Hx H]. cbn [app drop_space]. rewrite Hx. apply IH, H. Qed.
Lemma drop_space_id c r : is_space c = false -> drop_space (c :: r) = c :: r.
Proof. intros H. cbn [drop_space]. rewrite H. reflexivity. Qed.
Lemma special_space c : special c = false -> is_space c = false.
Proof. intros H. unfold special in H. apply orb_false_iff in H. apply H. Qed.
Lemma trim_ok a n b : name n -> forallb is_space a = true -> forallb is_space b = true -> trim (a ++ n ++ b) = n.
Proof.
  intros Nm Ha Hb. unfold trim. rewrite (drop_space_app a _ Ha). pose proof Nm as [_ Nd]. destruct n as [|c n]; [destruct Nd|]. cbn [app]. rewrite drop_space_id by (apply special_space, (name_chars _ c Nm); left; reflexivity).
  change (c :: n ++ b) with ((c :: n) ++ b). rewrite rev_app_distr. rewrite drop_space_app. 2: { rewrite forallb_forall in *. intros x Hx. apply Hb. rewrite <- in_rev in Hx. exact Hx. }
  destruct (rev (c :: n)) as [|y m] eqn:E; [apply (f_equal (@length ascii)) in E; rewrite rev_length in E; discriminate E|]. rewrite drop_space_id; [rewrite <- E; apply rev_involutive|]. apply special_space, (name_chars _ y Nm). apply in_rev. rewrite E. left. reflexivity.
Qed.
Lemma pad_char s n x : padded s n -> (forall c, In c n -> special c = false) -> In x s -> special x = false \/ is_space x = true.
Proof. intros (a & b & -> & Ha & Hb) Hn H. rewrite forallb_forall in *. apply in_app_or in H as [H|H]; [right; apply Ha, H|]. apply in_app_or in H as [H|H]; [left; apply Hn, H|right; apply Hb, H]. Qed.
Lemma pad_nocomma s n : padded s n -> (forall c, In c n -> special c = false) -> ~ In ","%char s.
Proof. intros P Hn H. destruct (pad_char s n _ P Hn H); discriminate. Qed.
Lemma pad_trim s n : padded s n -> name n -> trim s = n.
Proof. intros (a & b & -> & Ha & Hb) Hn. apply trim_ok; assumption. Qed.
Lemma pad_nl s n : padded s n -> padded (s ++ [nl]) n.
Proof. intros (a & b & -> & Ha & Hb). exists a, (b ++ [nl]). rewrite <- !app_assoc. split; [reflexivity|]. split; [exact Ha|]. rewrite forallb_app, Hb. reflexivity. Qed.
Lemma names_loop : forall raws names pre, Forall2 padded raws names -> (forall n, In n names -> name n) -> (forall r, In r raws -> length r <= 47) -> names <> [] ->
  get_names (length names) (pre ++ join "," raws ++ [nl]) (length pre) = Some names.
Proof.
  induction raws as [|r raws IH]; intros names pre HF HN HL NE; inversion HF as [|? n ? names' Hr HF']; subst; [congruence|]. pose proof (HN n (or_introl eq_refl)) as Nn. assert (NC : ~ In ","%char r) by (apply (pad_nocomma r n Hr); intros c; apply name_chars; exact Nn). pose proof (HL r (or_introl eq_refl)) as Lr.
  cbn [length get_names]. unfold get_variable_name, strchr. rewrite skipn_len. destruct raws as [|r' raws].
  - inversion HF'; subst. cbn [join length get_names]. rewrite index_none. 2: { intros H. apply in_app_or in H as [H|[H|[]]]; [contradiction|discriminate H]. } cbn [obind]. rewrite (proj2 (Nat.leb_le _ _)) by (rewrite app_length; cbn [length]; lia). cbn [obind fst snd]. rewrite (pad_trim _ n (pad_nl _ _ Hr) Nn). reflexivity.
  - change (join "," (r :: r' :: raws)) with (r ++ ","%char :: join "," (r' :: raws)). set (J := join "," (r' :: raws)) in *. rewrite <- app_assoc. cbn [app]. rewrite (index_app "," r _ NC). cbn [obind]. replace (length pre + length r - length pre) with (length r) by lia. rewrite firstn_len, (proj2 (Nat.leb_le _ _)) by lia. cbn [obind fst snd]. rewrite (pad_trim r n Hr Nn).
    replace (S (length pre + length r)) with (length (pre ++ r ++ [","%char])) by (rewrite !app_length; cbn; lia). replace (pre ++ r ++ ","%char :: J ++ [nl]) with ((pre ++ r ++ [","%char]) ++ J ++ [nl]) by (rewrite <- !app_assoc; reflexivity).
    rewrite IH; [reflexivity|exact HF'|intros m Hm; apply HN; right; exact Hm|intros m Hm; apply HL; right; exact Hm|]. inversion HF'; discriminate.
Qed.
Lemma join_count raws names : Forall2 padded raws names -> (forall n, In n names -> name n) -> names <> [] -> S (count_char "," (join "," raws)) = length names.
Proof.
  revert names. induction raws as [|r raws IH]; intros names HF HN NE; inversion HF as [|? n ? names' Hr HF']; subst; [congruence|]. assert (NC : ~ In ","%char r) by (apply (pad_nocomma r n Hr); intros c; apply name_chars, HN; left; reflexivity). destruct raws as [|r' raws].
  - inversion HF'; subst. cbn [join]. rewrite (count_none _ _ NC). reflexivity.
  - change (join "," (r :: r' :: raws)) with (r ++ [","%char] ++ join "," (r' :: raws)). rewrite !count_app, (count_none _ _ NC). change (count_char "," [","%char]) with 1. cbn [Nat.add length]. f_equal. apply IH; [exact HF'|intros m Hm; apply HN; right; exact Hm|inversion HF'; discriminate].
Qed.
Lemma nodup_dup names : NoDup names -> duplicates names = false.
Proof.
  induction names as [|n names IH]; intros ND; [reflexivity|]. inversion ND as [|? ? N1 N2]; subst. cbn [duplicates]. rewrite IH by exact N2. rewrite orb_false_r. destruct (existsb (same n) names) eqn:E; [|reflexivity]. apply existsb_exists in E as (m & Hm & E). apply same_iff in E. subst m. contradiction.
Qed.
(** ** the characteristic *)
Lemma char_ok l2 ds p : padded l2 ds -> number ds -> dval ds = p -> (0 <= p <= 2147483647)%Z -> get_characteristic (l2 ++ [nl]) = Some p.
Proof.
  intros (a & b & -> & Ha & Hb) Nd Ep Hp. assert (E : strtol ((a ++ ds ++ b) ++ [nl]) = p).
  { rewrite <- app_assoc, <- app_assoc. assert (Q : strtol (a ++ ds ++ b ++ [nl]) = strtol (ds ++ b ++ [nl])) by (unfold strtol; rewrite (drop_space_app a _ Ha); reflexivity). rewrite Q, strtol_plain, clip_id; [exact Ep|lia|exact Nd|].
    destruct b as [|x b]; [reflexivity|]. cbn [forallb] in Hb. apply andb_true_iff in Hb as [Hx _]. cbn. destruct (is_digit x) eqn:D; [rewrite (digit_nospace x D) in Hx; discriminate Hx|reflexivity]. }
  unfold get_characteristic. rewrite E, (proj2 (Z.leb_le 0 p)), (proj2 (Z.leb_le p _)) by lia. reflexivity.
Qed.
(** ** the generators *)
Lemma unblank_in x u : blank x = false -> In x u -> In x (unblank u).
Proof. intros B H. apply filter_In. rewrite B. auto. Qed.
Lemma poly_nocomma names P : names_ok names -> (forall t, In t P -> good names t) -> ~ In ","%char (text_poly names P).
Proof.
  intros HN HP H. assert (B : forall t, In t P -> ~ In ","%char (text_body names t)) by (intros t Ht; destruct (HP t Ht) as (A & E & _); apply body_not; auto; cbn; auto). destruct P as [|t P]; [destruct H|]. cbn [text_poly] in H. apply in_app_or in H as [H|H].
  - unfold text_first in H. apply in_app_or in H as [H|H]; [destruct (t_neg t); cbn in H; intuition discriminate|]. apply (B t (or_introl eq_refl) H).
  - apply in_concat in H as (w & Hw & Hx). apply in_map_iff in Hw as (u & <- & Hu). unfold text_term in Hx. destruct Hx as [Hx|Hx]; [destruct (t_neg u); discriminate Hx|]. apply (B u (or_intror Hu) Hx).
Qed.
Lemma chunks_ok names : names_ok names -> forall us Ps, Forall2 (fun u P => unblank u = text_poly names P) us Ps -> (forall P, In P Ps -> P <> [] /\ forall t, In t P -> good names t) ->
  Forall2 (fun c P => exists tl, tail_ok tl /\ c = text_poly names P ++ tl) (map unblank (pieces "," (join "," us) [])) Ps.
Proof.
  intros HN. induction us as [|u us IH]; intros Ps HF HP; inversion HF as [|? P ? Ps' Hu HF']; subst; [constructor|]. destruct (HP P (or_introl eq_refl)) as [NP GP]. assert (NC : ~ In ","%char u) by (intros H; apply (unblank_in ","%char u (eq_refl : blank ","%char = false)) in H; rewrite Hu in H; exact (poly_nocomma names P HN GP H)).
  destruct us as [|u' us].
  - inversion HF'; subst. cbn [join]. rewrite pieces_last; [|exact NC|]. 2: { intros ->. cbn in Hu. destruct P as [|t P]; [congruence|]. cbn [text_poly] in Hu. destruct (GP t (or_introl eq_refl)) as (TK & _). pose proof (body_nonempty names t HN TK) as B. unfold text_first in Hu. destruct (t_neg t); [discriminate Hu|]. destruct (text_body names t); [congruence|discriminate Hu]. }
    cbn [rev app map]. constructor; [exists []; split; [left; reflexivity|rewrite app_nil_r; exact Hu]|constructor].
  - change (join "," (u :: u' :: us)) with (u ++ ","%char :: join "," (u' :: us)). rewrite (pieces_cut _ _ _ _ NC). cbn [rev app map]. constructor.
    + exists [","%char]. split; [right; reflexivity|]. unfold unblank in *. rewrite filter_app, Hu. reflexivity.
    + apply IH; [exact HF'|intros Q HQ; apply HP; right; exact HQ].
Qed.
Theorem file_ok text names p Ps (row : term -> (Z * Z) * list Z -> Prop) (fine : list term -> Prop) : names <> [] -> names_ok names -> (0 <= p <= 2147483647)%Z -> file_text text names p Ps ->
  (forall P, In P Ps -> P <> [] /\ (forall t, In t P -> good names t) /\ fine P) ->
  (forall P tl, fine P -> tail_ok tl -> P <> [] -> (forall t, In t P -> good names t) -> exists R, read_line names p (text_poly names P ++ tl) = Some R /\ Forall2 row P R) ->
  exists i, read_file text = Some i /\ i_names i = names /\ i_char i = p /\ Forall2 (Forall2 row) Ps (i_gens i).
Proof.
  intros NE HN Hp (l1 & l2 & body & raws & ds & us & -> & N1 & N2 & -> & HF & HL & Pd & Nd & Ep & -> & HU & HW) HP HR. pose proof HN as [ND Nm]. set (body := join "," us) in *. unfold read_file. rewrite (pieces_cut nl _ _ [] N1), (pieces_cut nl _ _ [] N2). cbn [rev app].
  assert (CN : S (count_char "," (join "," raws ++ [nl])) = length names) by (rewrite count_app; change (count_char "," [nl]) with 0; rewrite Nat.add_0_r; apply (join_count raws names HF Nm NE)).
  rewrite CN. pose proof (names_loop raws names [] HF Nm HL NE) as NL. cbn [app length] in NL. rewrite NL. cbn [obind]. rewrite (nodup_dup names ND), (char_ok l2 ds p Pd Nd Ep Hp). cbn [obind]. rewrite pieces_concat. cbn [rev app]. rewrite ngens_ok, HW.
  pose proof (chunks_ok names HN us Ps HU (fun P H => conj (proj1 (HP P H)) (proj1 (proj2 (HP P H))))) as CK. fold body in CK. assert (LC : length (map unblank (pieces "," body [])) = length Ps) by (clear -CK; induction CK; [reflexivity|cbn [length]; congruence]). rewrite LC, Nat.eqb_refl. cbn [negb].
  assert (G : exists gens, omap (read_line names p) (map unblank (pieces "," body [])) = Some gens /\ Forall2 (Forall2 row) Ps gens).
  { clear HU HW LC. revert HP. induction CK as [|c P cs Ps' Hc CK IH]; intros HP; [exists []; split; [reflexivity|constructor]|]. destruct Hc as (tl & Ht & ->). destruct (HP P (or_introl eq_refl)) as (NP & GP & FP). destruct (HR P tl FP Ht NP GP) as (R & ER & FR). destruct (IH (fun Q H => HP Q (or_intror H))) as (gens & EG & FG). exists (R :: gens). cbn [omap]. rewrite ER. cbn [obind]. rewrite EG. split; [reflexivity|constructor; assumption]. }
  destruct G as (gens & -> & FG). cbn [obind]. eexists. split; [reflexivity|]. cbn [i_names i_char i_gens]. auto.
Qed.
