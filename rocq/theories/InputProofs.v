(** Proofs about the genericity handling. *)
From Coq Require Import ZArith String List Arith Bool Lia.
From Verif Require Import ModInvModel InputSpec InputModel.
Import ListNotations.
Open Scope Z_scope.

(** ** Arrays *)
Lemma nth_error_ext {A} (l l' : list A) : (forall i, nth_error l i = nth_error l' i) -> l = l'.
Proof.
  revert l'. induction l as [|a l IH]; intros [|b l'] H; [reflexivity|specialize (H O); discriminate|specialize (H O); discriminate|].
  f_equal; [specialize (H O); cbn in H; congruence|apply IH; intros i; exact (H (S i))].
Qed.
Lemma aset_some {A} (l : list A) i v : (i < length l)%nat -> exists l', aset l i v = Some l' /\ length l' = length l /\ nth_error l' i = Some v /\ forall j, j <> i -> nth_error l' j = nth_error l j.
Proof.
  revert i. induction l as [|a l IH]; intros i Hi; [cbn in Hi; lia|]. destruct i.
  - exists (v :: l). cbn. repeat split; auto. intros [|j] Hj; [lia|reflexivity].
  - cbn in Hi. destruct (IH i ltac:(lia)) as (l' & E & L & N & O). exists (a :: l'). cbn. rewrite E. cbn. repeat split; auto.
    intros [|j] Hj; [reflexivity|]. cbn. apply O. lia.
Qed.
Lemma aset_app_r {A} (p l : list A) i v : aset (p ++ l) (length p + i) v = (let? r := aset l i v in Some (p ++ r)).
Proof. induction p as [|a p IH]; cbn; [destruct (aset l i v); reflexivity|]. rewrite IH. destruct (aset l i v); reflexivity. Qed.
Lemma aset_app_l {A} (l p : list A) i v : (i < length l)%nat -> aset (l ++ p) i v = (let? r := aset l i v in Some (r ++ p)).
Proof.
  revert i. induction l as [|a l IH]; intros i Hi; [cbn in Hi; lia|]. destruct i; [reflexivity|]. cbn in *. rewrite IH by lia. destruct (aset l i v); reflexivity.
Qed.
Lemma aset_sub {A} (p l q : list A) i v : (i < length l)%nat -> aset (p ++ l ++ q) (length p + i) v = (let? r := aset l i v in Some (p ++ r ++ q)).
Proof. intros Hi. rewrite aset_app_r, aset_app_l by assumption. destruct (aset l i v); reflexivity. Qed.
Lemma nth_error_sub {A} (p l q : list A) i : (i < length l)%nat -> nth_error (p ++ l ++ q) (length p + i) = nth_error l i.
Proof. intros Hi. rewrite nth_error_app2 by lia. replace (length p + i - length p)%nat with i by lia. now rewrite nth_error_app1. Qed.
Lemma aswap_ok {A} (l : list A) a b : (a < length l)%nat -> (b < length l)%nat -> exists l', aswap l a b = Some l' /\ transposed a b l l'.
Proof.
  intros Ha Hb. unfold aswap. destruct (nth_error l a) as [x|] eqn:Ea; [|apply nth_error_None in Ea; lia].
  destruct (nth_error l b) as [y|] eqn:Eb; [|apply nth_error_None in Eb; lia]. cbn [obind].
  destruct (aset_some l a y Ha) as (l1 & E1 & L1 & N1 & O1). rewrite E1. cbn [obind].
  destruct (aset_some l1 b x ltac:(lia)) as (l2 & E2 & L2 & N2 & O2). rewrite E2. exists l2. split; [reflexivity|]. repeat split.
  - lia.
  - destruct (Nat.eq_dec a b) as [->|N]; [congruence|]. rewrite O2 by assumption. congruence.
  - congruence.
  - intros i I1 I2. rewrite O2, O1 by assumption. reflexivity.
Qed.
Lemma aswap_sub {A} (p l q : list A) a b : (a < length l)%nat -> (b < length l)%nat -> aswap (p ++ l ++ q) (length p + a) (length p + b) = (let? r := aswap l a b in Some (p ++ r ++ q)).
Proof.
  intros Ha Hb. unfold aswap. rewrite !nth_error_sub by assumption.
  destruct (nth_error l a) as [x|]; [|reflexivity]. destruct (nth_error l b) as [y|]; [|reflexivity]. cbn [obind].
  rewrite aset_sub by assumption. destruct (aset_some l a y Ha) as (l1 & E1 & L1 & _). rewrite E1. cbn [obind]. rewrite aset_sub by lia. reflexivity.
Qed.
Lemma transposed_fun {A} a b (l l1 l2 : list A) : transposed a b l l1 -> transposed a b l l2 -> l1 = l2.
Proof.
  intros (A1 & B1 & C1 & D1) (A2 & B2 & C2 & D2). apply nth_error_ext. intros i.
  destruct (Nat.eq_dec i a) as [->|]; [congruence|]. destruct (Nat.eq_dec i b) as [->|]; [congruence|]. rewrite D1, D2 by assumption. reflexivity.
Qed.
Lemma transposed_sym {A} a b (l l' : list A) : transposed a b l l' -> transposed a b l' l.
Proof. intros (A1 & B1 & C1 & D1). repeat split; [lia|congruence|congruence|]. intros i I1 I2. symmetry. now apply D1. Qed.
Lemma transposed_comm {A} a b (l l' : list A) : transposed a b l l' -> transposed b a l l'.
Proof. intros (A1 & B1 & C1 & D1). repeat split; auto. Qed.

Definition sw {A} (a b : nat) (l : list A) : list A := match aswap l a b with Some r => r | None => l end.
Lemma sw_ok {A} a b (l : list A) : (a < length l)%nat -> (b < length l)%nat -> aswap l a b = Some (sw a b l) /\ transposed a b l (sw a b l).
Proof. intros Ha Hb. unfold sw. destruct (aswap_ok l a b Ha Hb) as (l' & E & T). rewrite E. auto. Qed.
Lemma sw_len {A} a b (l : list A) : (a < length l)%nat -> (b < length l)%nat -> length (sw a b l) = length l.
Proof. intros Ha Hb. exact (proj1 (proj2 (sw_ok a b l Ha Hb))). Qed.
Lemma sw_inv {A} a b (l : list A) : (a < length l)%nat -> (b < length l)%nat -> sw a b (sw a b l) = l.
Proof.
  intros Ha Hb. assert (L := sw_len a b l Ha Hb). destruct (sw_ok a b l Ha Hb) as [_ T]. destruct (sw_ok a b (sw a b l) ltac:(lia) ltac:(lia)) as [_ T2].
  exact (transposed_fun _ _ _ _ _ T2 (transposed_sym _ _ _ _ T)).
Qed.

(** ** Representation of a system *)
Definition sw_sys (a b : nat) (s : isys) : isys := map (map (fun t => (fst t, sw a b (snd t)))) s.

Lemma swap_terms_ok n c (ts : ipoly) : forall len j pre post, (0 < n)%nat -> (c < n)%nat -> (forall t, In t ts -> length (snd t) = n) -> length pre = (len + j * n)%nat ->
  swap_terms (length ts) j n c len (pre ++ flat_map snd ts ++ post) = Some (pre ++ flat_map snd (map (fun t => (fst t, sw (n - 1) c (snd t))) ts) ++ post).
Proof.
  induction ts as [|t ts IH]; intros len j pre post Hn Hc Hl Hp; cbn [length swap_terms flat_map map]; [reflexivity|].
  assert (Lt := Hl t (or_introl eq_refl)). rewrite <- Hp. rewrite <- !app_assoc. rewrite aswap_sub by lia.
  destruct (sw_ok (n - 1) c (snd t) ltac:(lia) ltac:(lia)) as [E T]. rewrite E. cbn [obind snd].
  assert (L := sw_len (n - 1) c (snd t) ltac:(lia) ltac:(lia)).
  specialize (IH len (S j) (pre ++ sw (n - 1) c (snd t)) post Hn Hc (fun t' h => Hl t' (or_intror h))). rewrite <- !app_assoc in IH. apply IH.
  rewrite app_length. lia.
Qed.
Lemma flat_len n (ts : ipoly) : (forall t, In t ts -> length (snd t) = n) -> length (flat_map snd ts) = (length ts * n)%nat.
Proof. induction ts as [|t ts IH]; intros H; cbn; [reflexivity|]. rewrite app_length, IH by (intros; apply H; now right). rewrite (H t) by now left. reflexivity. Qed.
Lemma swap_gens_ok n c (s : isys) : forall len pre, (0 < n)%nat -> (c < n)%nat -> sys_wf n s -> length pre = len ->
  swap_gens (map (@length iterm) s) n c len (pre ++ flat_map (flat_map snd) s) = Some (pre ++ flat_map (flat_map snd) (sw_sys (n - 1) c s)).
Proof.
  induction s as [|p s IH]; intros len pre Hn Hc Hw Hp; cbn [map swap_gens flat_map]; [reflexivity|]. unfold sw_sys. cbn [map flat_map]. fold (sw_sys (n - 1) c s).
  assert (Hwp : forall t, In t p -> length (snd t) = n) by (apply Hw; now left).
  rewrite (swap_terms_ok n c p) by (assumption || lia). cbn [obind].
  set (p' := map (fun t : coef * list Z => (fst t, sw (n - 1) c (snd t))) p).
  assert (L : length (flat_map snd p') = (length p * n)%nat).
  { rewrite (flat_len n); [unfold p'; now rewrite map_length|]. unfold p'. intros t Ht. apply in_map_iff in Ht. destruct Ht as (t0 & <- & H0). cbn [snd].
    rewrite sw_len by (rewrite (Hwp t0 H0); lia). auto. }
  specialize (IH (len + length p * n)%nat (pre ++ flat_map snd p') Hn Hc). rewrite <- !app_assoc in IH. apply IH.
  - intros q Hq. apply Hw. now right.
  - rewrite app_length. lia.
Qed.
Lemma sw_sys_wf n a b s : (a < n)%nat -> (b < n)%nat -> sys_wf n s -> sys_wf n (sw_sys a b s).
Proof.
  intros Ha Hb Hw p Hp t Ht. unfold sw_sys in Hp. apply in_map_iff in Hp. destruct Hp as (p0 & <- & H0). apply in_map_iff in Ht. destruct Ht as (t0 & <- & H1).
  cbn [snd]. specialize (Hw p0 H0 t0 H1). rewrite sw_len; lia.
Qed.
Lemma sw_sys_inv n a b s : (a < n)%nat -> (b < n)%nat -> sys_wf n s -> sw_sys a b (sw_sys a b s) = s.
Proof.
  intros Ha Hb Hw. unfold sw_sys. rewrite map_map. rewrite <- (map_id s) at 2. apply map_ext_in. intros p Hp. rewrite map_map. rewrite <- (map_id p) at 2.
  apply map_ext_in. intros [cf e] Ht. cbn [fst snd]. f_equal. apply sw_inv; rewrite (Hw p Hp _ Ht : length e = n); assumption.
Qed.
Lemma sw_sys_cfs a b s : flat_map (map fst) (sw_sys a b s) = flat_map (map fst) s.
Proof. unfold sw_sys. induction s as [|p s IH]; cbn; [reflexivity|]. rewrite IH. f_equal. rewrite map_map. reflexivity. Qed.
Lemma sw_sys_lens a b s : map (@length iterm) (sw_sys a b s) = map (@length iterm) s.
Proof. unfold sw_sys. rewrite map_map. apply map_ext. intros p. apply map_length. Qed.
Lemma sw_sys_spec n a b s : (a < n)%nat -> (b < n)%nat -> sys_wf n s -> sys_transposed a b s (sw_sys a b s).
Proof.
  intros Ha Hb. unfold sw_sys. induction s as [|p s IH]; intros Hw; constructor.
  - assert (Hp := Hw p (or_introl eq_refl)). clear IH Hw. induction p as [|t p IH]; constructor.
    + split; [reflexivity|]. cbn [snd]. apply sw_ok; rewrite (Hp t) by (now left); assumption.
    + apply IH. intros t' H. apply Hp. now right.
  - apply IH. intros q Hq. apply Hw. now right.
Qed.

Lemma swap_with_ok g names s c : (0 < nvars g)%nat -> (c < nvars g)%nat -> rep g names s -> exists g',
  swap_with g c = Some g' /\ rep g' (sw (nvars g - 1) c names) (sw_sys (nvars g - 1) c s) /\ nvars g' = nvars g /\
  change_var_order g' = change_var_order g /\ linear_form_base_coef g' = linear_form_base_coef g /\ rand_linear g' = rand_linear g /\
  field_char g' = field_char g /\ random_linear_form g' = random_linear_form g.
Proof.
  intros Hn Hc (R1 & R2 & R3 & R4 & R5 & R6). unfold swap_with. rewrite R1, R4, R5.
  destruct (sw_ok (nvars g - 1) c names ltac:(lia) ltac:(lia)) as [E _]. rewrite E. cbn [obind].
  assert (H := swap_gens_ok (nvars g) c s 0 [] Hn Hc R3 eq_refl). cbn [app] in H. rewrite H. cbn [obind]. eexists. split; [reflexivity|]. cbn. repeat split.
  - rewrite sw_len by lia. assumption.
  - apply (sw_sys_wf (nvars g)); [lia|lia|assumption].
  - rewrite sw_sys_lens. reflexivity.
  - rewrite sw_sys_cfs. assumption.
Qed.
Lemma rep_set_cvo g z names s : rep g names s -> rep (set_cvo g z) names s.
Proof. intros H. exact H. Qed.

(** ** Linear form *)
Lemma blit_ok (p d q sp b sq : list Z) : length d = length b -> blit (p ++ d ++ q) (sp ++ b ++ sq) (length p) (length sp) (length b) = Some (p ++ b ++ q).
Proof.
  intros L. unfold blit. rewrite !app_length, !L.
  replace ((length sp + length b <=? length sp + (length b + length sq))%nat) with true by (symmetry; apply Nat.leb_le; lia).
  replace ((length p + length b <=? length p + (length b + length q))%nat) with true by (symmetry; apply Nat.leb_le; lia). cbn [andb]. f_equal.
  rewrite firstn_app, Nat.sub_diag, firstn_all. cbn [firstn]. rewrite app_nil_r. f_equal.
  rewrite skipn_app, Nat.sub_diag, skipn_all. cbn [skipn app]. rewrite firstn_app, Nat.sub_diag, firstn_all. cbn [firstn]. rewrite app_nil_r. f_equal.
  rewrite app_assoc, skipn_app, skipn_all2 by (rewrite app_length; lia). rewrite app_length. replace (length p + length b - (length p + length d))%nat with O by lia. reflexivity.
Qed.
Lemma copy_loop_ok no (bs : list (list Z)) : (0 < no)%nat -> forall pre sp post, (forall b, In b bs -> length b = no) ->
  copy_loop (length bs) (pre ++ repeat 0 (length bs * S no) ++ post) (sp ++ concat bs) (length sp) (length pre) no (length sp + length bs * no)
  = Some (pre ++ concat (map (fun b => b ++ [0]) bs) ++ post, (length pre + length bs * S no)%nat).
Proof.
  intros Hno. induction bs as [|b bs IH]; intros pre sp post Hl; cbn [length copy_loop].
  - rewrite Nat.mul_0_l, Nat.add_0_r, Nat.ltb_irrefl. cbn. now rewrite Nat.add_0_r.
  - replace (length sp <? length sp + S (length bs) * no)%nat with true by (symmetry; apply Nat.ltb_lt; lia).
    assert (Lb := Hl b (or_introl eq_refl)). cbn [concat map]. rewrite (Nat.mul_succ_l (length bs) (S no)), (Nat.add_comm _ (S no)), repeat_app.
    replace (repeat 0 (S no)) with (repeat 0 no ++ [0]) by (clear; induction no; cbn; [reflexivity|cbn in IHno; congruence]).
    rewrite <- !app_assoc. subst no. rewrite blit_ok by (rewrite repeat_length; lia). cbn [obind].
    specialize (IH (pre ++ b ++ [0]) (sp ++ b) post (fun x h => Hl x (or_intror h))). rewrite <- !app_assoc in IH. rewrite !app_length in IH. cbn [length] in IH.
    replace (length pre + S (length b))%nat with (length pre + (length b + 1))%nat by lia.
    replace (length sp + S (length bs) * length b)%nat with (length sp + length b + length bs * length b)%nat by lia. rewrite IH. cbn [app]. do 2 f_equal. lia.
Qed.
Lemma unit_exp_len n i : length (unit_exp n i) = n.
Proof. unfold unit_exp. rewrite map_length. apply seq_length. Qed.
Lemma nth_error_repeat0 {A} (x : A) n i : (i < n)%nat -> nth_error (repeat x n) i = Some x.
Proof. revert i. induction n; intros [|i] H; [lia|lia|reflexivity|apply IHn; lia]. Qed.
Lemma aset_unit n i : (i < n)%nat -> aset (repeat 0 n) i 1 = Some (unit_exp n i).
Proof.
  intros Hi. destruct (aset_some (repeat 0 n) i 1) as (l & E & L & N & O); [rewrite repeat_length; assumption|]. rewrite E. f_equal. rewrite repeat_length in L.
  apply nth_error_ext. intros j. destruct (lt_dec j n) as [H|H].
  - unfold unit_exp. rewrite nth_error_map. assert (Ej : nth_error (seq 0 n) j = Some j).
    { rewrite (nth_error_nth' (seq 0 n) 0%nat) by (rewrite seq_length; lia). now rewrite seq_nth by lia. }
    rewrite Ej. cbn. destruct (Nat.eqb_spec j i) as [->|D]; [assumption|]. rewrite O by assumption. now apply nth_error_repeat0.
  - transitivity (@None Z); [|symmetry]; apply nth_error_None; [|rewrite unit_exp_len]; lia.
Qed.
Lemma diag_loop_ok n : (0 < n)%nat -> forall m k pre fuel, (k + m = n)%nat -> (m <= fuel)%nat ->
  diag_loop fuel (pre ++ repeat 0 (m * n)) (length pre + k) (S n) (length pre + m * n) = Some (pre ++ concat (map (unit_exp n) (seq k m))).
Proof.
  intros Hn. induction m as [|m IH]; intros k pre fuel Hk Hf.
  - cbn [Nat.mul seq map concat repeat]. rewrite app_nil_r, Nat.add_0_r. destruct fuel; cbn [diag_loop]; replace (length pre + k <? length pre)%nat with false by (symmetry; apply Nat.ltb_ge; lia); reflexivity.
  - destruct fuel as [|fuel]; [lia|]. cbn [diag_loop]. replace (length pre + k <? length pre + S m * n)%nat with true by (symmetry; apply Nat.ltb_lt; nia).
    rewrite (Nat.mul_succ_l m n), (Nat.add_comm _ n), repeat_app. rewrite aset_sub by (rewrite repeat_length; lia). rewrite aset_unit by lia. cbn [obind seq map concat].
    specialize (IH (S k) (pre ++ unit_exp n k) fuel ltac:(lia) ltac:(lia)). rewrite <- !app_assoc, app_length, unit_exp_len in IH.
    replace (length pre + k + S n)%nat with (length pre + n + S k)%nat by lia. rewrite Nat.add_assoc. exact IH.
Qed.
Lemma ext_flat s : flat_map (flat_map snd) (ext_sys s) = concat (map (fun b => b ++ [0]) (flat_map (map snd) s)).
Proof.
  unfold ext_sys. induction s as [|p s IH]; cbn; [reflexivity|]. rewrite IH, map_app, concat_app. f_equal. clear IH. induction p as [|t p IH]; cbn; [reflexivity|]. now rewrite IH.
Qed.
Lemma flat_concat s : flat_map (flat_map snd) s = concat (flat_map (map (@snd coef (list Z))) s).
Proof. induction s as [|p s IH]; cbn; [reflexivity|]. rewrite IH, concat_app. f_equal. clear. now rewrite <- flat_map_concat_map. Qed.
Lemma sum_lens_ok (s : isys) : sum_lens (map (@length iterm) s) = length (flat_map (map (@snd coef (list Z))) s).
Proof. induction s as [|p s IH]; cbn; [reflexivity|]. rewrite app_length, map_length. unfold sum_lens in IH. rewrite IH. reflexivity. Qed.
Lemma ext_lens s : map (@length iterm) (ext_sys s) = map (@length iterm) s.
Proof. unfold ext_sys. rewrite map_map. apply map_ext. intros. apply map_length. Qed.
Lemma ext_cfs s : flat_map (map fst) (ext_sys s) = flat_map (map fst) s.
Proof. unfold ext_sys. induction s as [|p s IH]; cbn; [reflexivity|]. rewrite IH, map_map. reflexivity. Qed.
Lemma ext_wf n s : sys_wf n s -> sys_wf (S n) (ext_sys s).
Proof.
  intros Hw p Hp t Ht. unfold ext_sys in Hp. apply in_map_iff in Hp. destruct Hp as (p0 & <- & H0). apply in_map_iff in Ht. destruct Ht as (t0 & <- & H1).
  cbn [ext_term snd]. rewrite app_length. specialize (Hw p0 H0 t0 H1). cbn. lia.
Qed.
Lemma combine_fst {A B} (l : list A) (m : list B) : length l = length m -> map fst (combine l m) = l.
Proof. revert m. induction l as [|a l IH]; intros [|b m] H; cbn in *; try discriminate; [reflexivity|]. f_equal. apply IH. lia. Qed.
Lemma combine_snd {A B} (l : list A) (m : list B) : length l = length m -> map snd (combine l m) = m.
Proof. revert m. induction l as [|a l IH]; intros [|b m] H; cbn in *; try discriminate; [reflexivity|]. f_equal. apply IH. lia. Qed.
Lemma form_fst cs : map fst (linear_form cs) = cs.
Proof. apply combine_fst. now rewrite map_length, seq_length. Qed.
Lemma form_len cs : length (linear_form cs) = length cs.
Proof. unfold linear_form. etransitivity; [apply combine_length|]. rewrite map_length, seq_length. lia. Qed.
Lemma form_snd cs : flat_map snd (linear_form cs) = concat (map (unit_exp (length cs)) (seq 0 (length cs))).
Proof. rewrite flat_map_concat_map. unfold linear_form. rewrite combine_snd; [reflexivity|]. now rewrite map_length, seq_length. Qed.
Lemma form_wf cs t : In t (linear_form cs) -> length (snd t) = length cs.
Proof.
  destruct t as [c e]. intros H. apply in_combine_r in H. apply in_map_iff in H. destruct H as (i & <- & _). apply unit_exp_len.
Qed.

(** The system of the linear form stage. *)
Definition with_form (g : gens) (names : list string) (s : isys) (cs : list coef) : Prop :=
  rep g (names ++ ["A"%string]) (ext_sys s ++ [linear_form cs]) /\ length cs = nvars g.

Lemma extend_ok g names s : (0 < nvars g)%nat -> linear_form_base_coef g = 0 -> rep g names s -> exists g',
  extend g = Some g' /\ nvars g' = S (nvars g) /\ with_form g' names s (repeat (1, 1) (S (nvars g))) /\ cfs g' = cfs g ++ repeat (1, 1) (S (nvars g)) /\
  change_var_order g' = change_var_order g /\ field_char g' = field_char g /\ rand_linear g' = rand_linear g /\ random_linear_form g' = random_linear_form g.
Proof.
  intros Hn H0 (R1 & R2 & R3 & R4 & R5 & R6). unfold extend, len_new, len_old, nvars_new, nvars_old. rewrite H0. cbn [Z.eqb].
  set (n := nvars g) in *. set (bs := flat_map (map (@snd coef (list Z))) s).
  assert (Lo : sum_lens (lens g) = length bs) by (rewrite R4; apply sum_lens_ok). rewrite Lo.
  assert (Hb : forall b, In b bs -> length b = n).
  { intros b Hb. unfold bs in Hb. apply in_flat_map in Hb. destruct Hb as (p & Hp & Hb). apply in_map_iff in Hb. destruct Hb as (t & <- & Ht). exact (R3 p Hp t Ht). }
  assert (E1 := copy_loop_ok n bs Hn [] [] (repeat 0 (S n * S n)) Hb). cbn [app length Nat.add] in E1.
  rewrite Nat.mul_add_distr_r, repeat_app. rewrite R5, flat_concat. fold bs. rewrite E1. cbn [obind fst snd].
  set (pre := concat (map (fun b => b ++ [0]) bs)).
  assert (Lp : length pre = (length bs * S n)%nat).
  { unfold pre. clear - Hb. induction bs as [|b bs IH]; cbn; [reflexivity|]. rewrite !app_length, IH by (intros; apply Hb; now right). rewrite (Hb b) by now left. cbn. lia. }
  assert (E2 := diag_loop_ok (S n) ltac:(lia) (S n) 0 pre (length bs * S n + S n * S n) ltac:(lia) ltac:(nia)). rewrite Lp, Nat.add_0_r in E2. rewrite E2. cbn [obind].
  eexists. split; [reflexivity|]. split; [reflexivity|]. split; [|cbn; auto]. unfold with_form, rep. cbn [vnames nvars lens exps cfs].
  assert (Lc : @length coef (repeat (1, 1) (S n)) = S n) by apply repeat_length. split; [|exact Lc]. repeat split.
  - rewrite R1. reflexivity.
  - rewrite app_length. cbn. lia.
  - intros p Hp. apply in_app_or in Hp. destruct Hp as [Hp|[<-|[]]]; [now apply (ext_wf n s R3)|]. intros t Ht. rewrite (form_wf _ _ Ht). exact Lc.
  - rewrite map_app, ext_lens, R4. cbn [map]. rewrite form_len, Lc. reflexivity.
  - rewrite flat_map_app. cbn [flat_map]. rewrite app_nil_r, ext_flat, form_snd, Lc. reflexivity.
  - rewrite flat_map_app. cbn [flat_map]. rewrite app_nil_r, ext_cfs, form_fst, R6. reflexivity.
Qed.

(** Writing the coefficients. *)
Lemma set_num_sub (p l q : list coef) i v : (i < length l)%nat -> set_num (p ++ l ++ q) (length p + i) v = (let? x := nth_error l i in let? r := aset l i (v, snd x) in Some (p ++ r ++ q)).
Proof. intros H. unfold set_num. rewrite nth_error_sub by assumption. destruct (nth_error l i); [|reflexivity]. cbn [obind]. now rewrite aset_sub. Qed.
Lemma write_qq_ok e : forall cnt (l pre post : list coef) k (c' : list coef), length l = cnt -> (forall x, In x l -> snd x = 1) ->
  write_qq cnt (pre ++ l ++ post) (length pre) k e = Some c' ->
  c' = pre ++ map (fun j => ((k + Z.of_nat j) ^ e, 1)) (seq 0 cnt) ++ post /\ forall j, (j < cnt)%nat -> (k + Z.of_nat j) ^ e < 2 ^ 31.
Proof.
  induction cnt as [|cnt IH]; intros l pre post k c' Hl H1 H; cbn [write_qq] in H.
  - destruct l; [|discriminate]. injection H as <-. split; [reflexivity|]. intros; lia.
  - destruct l as [|x l]; [discriminate|]. unfold int_pow in H. destruct (k ^ e <? 2 ^ 31) eqn:B; [|discriminate]. cbn [obind] in H.
    assert (E := set_num_sub pre (x :: l) post 0 (k ^ e) ltac:(cbn; lia)). rewrite Nat.add_0_r in E. cbn [nth_error obind aset] in E. rewrite E in H. cbn [obind] in H.
    rewrite (H1 x) in H by now left. change ((pre ++ ((k ^ e, 1) :: l) ++ post)) with (pre ++ ([(k ^ e, 1)] ++ l) ++ post) in H. rewrite <- (app_assoc [_]), app_assoc in H.
    replace (S (length pre)) with (length (pre ++ [(k ^ e, 1)])) in H by (rewrite app_length; cbn; lia).
    apply IH in H; [|cbn in Hl; lia|intros y Hy; apply H1; now right]. destruct H as [-> Hj]. split.
    + rewrite <- app_assoc. f_equal. cbn [seq map app]. rewrite Z.add_0_r. f_equal. f_equal. rewrite <- seq_shift, map_map. apply map_ext. intros j. do 2 f_equal. lia.
    + intros [|j] Hlt; [rewrite Z.add_0_r; now apply Z.ltb_lt|]. specialize (Hj j ltac:(lia)). replace (k + Z.of_nat (S j)) with (k + 1 + Z.of_nat j) by lia. exact Hj.
Qed.
Lemma write_ff_ok e fc : forall cnt (l pre post : list coef) k (c' : list coef), length l = cnt -> (forall x, In x l -> snd x = 1) ->
  write_ff cnt (pre ++ l ++ post) (length pre) k e fc = Some c' ->
  c' = pre ++ map (fun j => (Z.rem ((k + Z.of_nat j) ^ e) fc, 1)) (seq 0 cnt) ++ post /\ forall j, (j < cnt)%nat -> (k + Z.of_nat j) ^ e < 2 ^ 31.
Proof.
  induction cnt as [|cnt IH]; intros l pre post k c' Hl H1 H; cbn [write_ff] in H.
  - destruct l; [|discriminate]. injection H as <-. split; [reflexivity|]. intros; lia.
  - destruct l as [|x l]; [discriminate|]. unfold int_pow in H. destruct (k ^ e <? 2 ^ 31) eqn:B; [|discriminate]. cbn [obind] in H.
    assert (E := set_num_sub pre (x :: l) post 0 (Z.rem (k ^ e) fc) ltac:(cbn; lia)). rewrite Nat.add_0_r in E. cbn [nth_error obind aset] in E. rewrite E in H. cbn [obind] in H.
    rewrite (H1 x) in H by now left. set (v := Z.rem (k ^ e) fc) in *. change ((pre ++ ((v, 1) :: l) ++ post)) with (pre ++ ([(v, 1)] ++ l) ++ post) in H. rewrite <- (app_assoc [_]), app_assoc in H.
    replace (S (length pre)) with (length (pre ++ [(v, 1)])) in H by (rewrite app_length; cbn; lia).
    apply IH in H; [|cbn in Hl; lia|intros y Hy; apply H1; now right]. destruct H as [-> Hj]. split.
    + rewrite <- app_assoc. f_equal. cbn [seq map app]. rewrite Z.add_0_r. fold v. f_equal. f_equal. rewrite <- seq_shift, map_map. apply map_ext. intros j. do 3 f_equal. lia.
    + intros [|j] Hlt; [rewrite Z.add_0_r; now apply Z.ltb_lt|]. specialize (Hj j ltac:(lia)). replace (k + Z.of_nat (S j)) with (k + 1 + Z.of_nat j) by lia. exact Hj.
Qed.
(** And they do succeed when all powers fit. *)
Lemma write_qq_total e : forall cnt (l : list coef) k i, (i + cnt <= length l)%nat -> (forall j, (j < cnt)%nat -> (k + Z.of_nat j) ^ e < 2 ^ 31) -> exists c', write_qq cnt l i k e = Some c' /\ length c' = length l.
Proof.
  induction cnt as [|cnt IH]; intros l k i Hi Hj; cbn [write_qq]; [eauto|]. unfold int_pow.
  assert (B := Hj O ltac:(lia)). rewrite Z.add_0_r in B. apply Z.ltb_lt in B. rewrite B. cbn [obind]. unfold set_num.
  destruct (nth_error l i) as [x|] eqn:E; [|apply nth_error_None in E; lia]. cbn [obind]. destruct (aset_some l i (k ^ e, snd x) ltac:(lia)) as (l1 & E1 & L1 & _). rewrite E1. cbn [obind].
  rewrite <- L1. apply IH; [lia|]. intros j Hlt. specialize (Hj (S j) ltac:(lia)). replace (k + 1 + Z.of_nat j) with (k + Z.of_nat (S j)) by lia. exact Hj.
Qed.
Lemma write_ff_total e fc : forall cnt (l : list coef) k i, (i + cnt <= length l)%nat -> (forall j, (j < cnt)%nat -> (k + Z.of_nat j) ^ e < 2 ^ 31) -> exists c', write_ff cnt l i k e fc = Some c' /\ length c' = length l.
Proof.
  induction cnt as [|cnt IH]; intros l k i Hi Hj; cbn [write_ff]; [eauto|]. unfold int_pow.
  assert (B := Hj O ltac:(lia)). rewrite Z.add_0_r in B. apply Z.ltb_lt in B. rewrite B. cbn [obind]. unfold set_num.
  destruct (nth_error l i) as [x|] eqn:E; [|apply nth_error_None in E; lia]. cbn [obind]. destruct (aset_some l i (Z.rem (k ^ e) fc, snd x) ltac:(lia)) as (l1 & E1 & L1 & _). rewrite E1. cbn [obind].
  rewrite <- L1. apply IH; [lia|]. intros j Hlt. specialize (Hj (S j) ltac:(lia)). replace (k + 1 + Z.of_nat j) with (k + Z.of_nat (S j)) by lia. exact Hj.
Qed.

(** A coefficient the solver puts in front of the new variable: not zero, and in positive characteristic not divisible by
    the characteristic. *)
Definition unit_coef (fc v : Z) : Prop := v <> 0 /\ (0 < fc -> v = 1 \/ Z.abs v < fc).
Definition coefs_ok (fc : Z) (cs : list coef) : Prop := (forall x, In x cs -> snd x = 1) /\ exists v, last cs (0, 1) = (v, 1) /\ unit_coef fc v.

Lemma with_form_split g names s cs : with_form g names s cs -> 0 < linear_form_base_coef g -> (0 < nvars g)%nat ->
  len_old g = length (flat_map (map fst) (ext_sys s)) /\ len_new g = (len_old g + nvars g)%nat /\ cfs g = flat_map (map fst) (ext_sys s) ++ cs /\ nvars_old g = (nvars g - 1)%nat.
Proof.
  intros [(R1 & R2 & R3 & R4 & R5 & R6) Hc] Hb Hn. unfold len_new, len_old, nvars_old. replace (linear_form_base_coef g =? 0) with false by (symmetry; apply Z.eqb_neq; lia).
  rewrite R4, map_app. cbn [map]. rewrite removelast_last, last_last. split; [|split; [|split; [|reflexivity]]].
  - rewrite sum_lens_ok. clear. induction (ext_sys s) as [|p l IH]; cbn; [reflexivity|]. rewrite !app_length, !map_length. lia.
  - rewrite form_len. lia.
  - rewrite R6, flat_map_app. cbn [flat_map]. rewrite app_nil_r, form_fst. reflexivity.
Qed.
Lemma with_form_set g names s cs cs' b rl rf : with_form g names s cs -> length cs' = nvars g -> with_form (set_cfs g (flat_map (map fst) (ext_sys s) ++ cs') b rl rf) names s cs'.
Proof.
  intros [(R1 & R2 & R3 & R4 & R5 & R6) Hc] Hl. assert (Hw : sys_wf (nvars g) (ext_sys s ++ [linear_form cs'])).
  { intros p Hp. apply in_app_or in Hp. destruct Hp as [Hp|[<-|[]]]; [apply R3; apply in_or_app; now left|]. intros t Ht. rewrite (form_wf _ _ Ht). assumption. }
  split; [|exact Hl]. repeat split; cbn [set_cfs vnames nvars lens exps cfs].
  - exact R1.
  - exact R2.
  - exact Hw.
  - rewrite R4, !map_app. cbn [map]. now rewrite !form_len, Hl, Hc.
  - rewrite R5, !flat_map_app. cbn [flat_map]. rewrite !form_snd, Hl, Hc. reflexivity.
  - rewrite flat_map_app. cbn [flat_map]. rewrite form_fst, app_nil_r. reflexivity.
Qed.

(** After [extend] both the first and the later linear forms are the same situation. *)
Lemma extend_form g names s : (0 < nvars g)%nat ->
  (linear_form_base_coef g = 0 /\ rep g names s \/ 0 < linear_form_base_coef g /\ (1 < nvars g)%nat /\ exists cs, with_form g names s cs /\ forall x, In x cs -> snd x = 1) ->
  exists g' cs, extend g = Some g' /\ nvars g' = S (nvars_old g) /\ with_form g' names s cs /\ (forall x, In x cs -> snd x = 1) /\
    len_old g = length (flat_map (map fst) (ext_sys s)) /\ len_new g = (len_old g + S (nvars_old g))%nat /\ (0 < nvars_old g)%nat /\
    cfs g' = flat_map (map fst) (ext_sys s) ++ cs /\ length cs = S (nvars_old g) /\
    change_var_order g' = change_var_order g /\ field_char g' = field_char g /\ rand_linear g' = rand_linear g.
Proof.
  intros Hn [[H0 R]|(Hb & Hn1 & cs & W & D)].
  - destruct (extend_ok g names s Hn H0 R) as (g' & E & N & W & C & F1 & F2 & F3 & F4).
    assert (On : nvars_old g = nvars g) by (unfold nvars_old; now rewrite H0). rewrite On.
    exists g', (repeat (1, 1) (S (nvars g))). destruct R as (R1 & R2 & R3 & R4 & R5 & R6). split; [assumption|]. split; [assumption|]. split; [assumption|]. split.
    { intros x Hx. apply repeat_spec in Hx. now subst. }
    split; [unfold len_old; rewrite H0; cbn [Z.eqb]; rewrite R4, sum_lens_ok, ext_cfs; clear; induction s as [|p l IH]; cbn; [reflexivity|]; rewrite !app_length, !map_length; lia|].
    split; [unfold len_new, nvars_new; rewrite H0, On; reflexivity|]. split; [assumption|]. split; [rewrite C, ext_cfs, R6; reflexivity|]. split; [apply repeat_length|auto].
  - destruct (with_form_split g names s cs W Hb Hn) as (L1 & L2 & L3 & L4). exists g, cs. unfold extend. replace (linear_form_base_coef g =? 0) with false by (symmetry; apply Z.eqb_neq; lia).
    destruct W as [W Wl]. repeat (split; [first [reflexivity|assumption|lia|split; assumption]|]). repeat split; lia || assumption || reflexivity.
Qed.

Definition power_coefs (fc e : Z) (n : nat) : list coef := map (fun j => (if 0 <? fc then Z.rem ((1 + Z.of_nat j) ^ e) fc else (1 + Z.of_nat j) ^ e, 1)) (seq 0 n) ++ [(1, 1)].
Lemma power_coefs_ok fc e n : coefs_ok fc (power_coefs fc e n) /\ length (power_coefs fc e n) = S n.
Proof.
  unfold coefs_ok, power_coefs. split; [split|].
  - intros x Hx. apply in_app_or in Hx. destruct Hx as [Hx|[<-|[]]]; [|reflexivity]. apply in_map_iff in Hx. destruct Hx as (j & <- & _). reflexivity.
  - exists 1. rewrite last_last. split; [reflexivity|]. split; [lia|]. auto.
  - rewrite app_length, map_length, seq_length. cbn. lia.
Qed.
Lemma split_last_len {A} (l : list A) n : length l = S n -> exists l0 x, l = l0 ++ [x] /\ length l0 = n.
Proof.
  intros H. destruct (exists_last (l := l)) as (l0 & x & ->); [intros ->; discriminate|]. exists l0, x. split; [reflexivity|]. rewrite app_length in H. cbn in H. lia.
Qed.
Definition form_stage (g : gens) (names : list string) (s : isys) : Prop :=
  linear_form_base_coef g = 0 /\ rep g names s \/ 0 < linear_form_base_coef g /\ (1 < nvars g)%nat /\ exists cs, with_form g names s cs /\ forall x, In x cs -> snd x = 1.

Lemma add_linear_form_ok g names s b g' : (0 < nvars g)%nat -> form_stage g names s -> add_linear_form g = Some (b, g') ->
  b = true /\ nvars g' = S (nvars_old g) /\ with_form g' names s (power_coefs (field_char g) (linear_form_base_coef g) (nvars_old g)) /\
  linear_form_base_coef g' = linear_form_base_coef g + 1 /\ field_char g' = field_char g /\ rand_linear g' = rand_linear g.
Proof.
  intros Hn HS H. unfold add_linear_form in H. destruct (extend_form g names s Hn HS) as (g1 & cs & E & N & W & D & L1 & L2 & L3 & C & Lc & F1 & F2 & F3).
  rewrite E in H. cbn [obind] in H. rewrite C, L2 in H. replace (linear_form_base_coef g + 1 - 1) with (linear_form_base_coef g) in H by lia.
  set (pre := flat_map (map fst) (ext_sys s)) in *. set (e := linear_form_base_coef g) in *. set (n := nvars_old g) in *.
  destruct (split_last_len cs n Lc) as (cs0 & x & -> & L0). rewrite L1 in H.
  replace (length pre + S n - 1 - length pre)%nat with n in H by lia. replace (length pre + S n - length pre)%nat with (S n) in H by lia. replace (length pre + S n - 1)%nat with (length pre + n)%nat in H by lia.
  destruct (power_coefs_ok (field_char g) e n) as [_ PL].
  assert (R : exists c1, (if 0 <? field_char g then write_ff n (pre ++ cs0 ++ [x]) (length pre) 1 e (field_char g) else write_qq (S n) (pre ++ cs0 ++ [x]) (length pre) 1 e) = Some c1 /\ exists y, snd y = 1 /\
              c1 = pre ++ map (fun j => (if 0 <? field_char g then Z.rem ((1 + Z.of_nat j) ^ e) (field_char g) else (1 + Z.of_nat j) ^ e, 1)) (seq 0 n) ++ [y]).
  { destruct (if 0 <? field_char g then _ else _) as [c1|] eqn:EW in H; [|discriminate]. exists c1. split; [exact EW|]. destruct (0 <? field_char g).
    - apply write_ff_ok in EW; [|assumption|intros; apply D; apply in_or_app; now left]. destruct EW as [-> _]. exists x. split; [apply D; apply in_or_app; right; now left|reflexivity].
    - rewrite <- (app_nil_r (cs0 ++ [x])) in EW. apply write_qq_ok in EW; [|assumption|assumption]. destruct EW as [-> _]. exists ((1 + Z.of_nat n) ^ e, 1). split; [reflexivity|].
      rewrite app_nil_r, seq_S, map_app. reflexivity. }
  destruct R as (c1 & EW & y & Hy & Ec). rewrite EW in H. cbn [obind] in H. subst c1.
  set (ps := map _ (seq 0 n)) in H. assert (Lps : @length coef ps = n) by (unfold ps; rewrite map_length, seq_length; reflexivity).
  assert (EN : set_num (pre ++ ps ++ [y]) (length pre + n) 1 = Some (pre ++ power_coefs (field_char g) e n)).
  { rewrite app_assoc. replace (length pre + n)%nat with (length (pre ++ ps) + 0)%nat by (rewrite (@app_length coef), Lps; lia). rewrite <- (app_nil_r [y]). rewrite set_num_sub by (cbn; lia). cbn [nth_error obind aset app].
    rewrite Hy, <- app_assoc. reflexivity. }
  rewrite EN in H. cbn [obind] in H. injection H as <- <-. split; [reflexivity|]. split; [cbn; exact N|]. split; [|cbn; auto].
  apply (with_form_set g1 names s (cs0 ++ [x]) _ _ _ _ W). rewrite PL. congruence.
Qed.
Lemma add_linear_form_total g names s : (0 < nvars g)%nat -> form_stage g names s -> 0 <= linear_form_base_coef g -> Z.of_nat (S (nvars_old g)) ^ linear_form_base_coef g < 2 ^ 31 -> exists r, add_linear_form g = Some r.
Proof.
  intros Hn HS He H. unfold add_linear_form. destruct (extend_form g names s Hn HS) as (g1 & cs & E & N & W & D & L1 & L2 & L3 & C & Lc & F1 & F2 & F3).
  rewrite E. cbn [obind]. rewrite L2. replace (linear_form_base_coef g + 1 - 1) with (linear_form_base_coef g) by lia.
  assert (P : forall j, (j < S (nvars_old g))%nat -> (1 + Z.of_nat j) ^ linear_form_base_coef g < 2 ^ 31).
  { intros j Hj. eapply Z.le_lt_trans; [apply Z.pow_le_mono_l|exact H]. lia. }
  assert (Lf : length (cfs g1) = (len_old g + S (nvars_old g))%nat) by (rewrite C, app_length, L1; lia).
  assert (R : exists c, (if 0 <? field_char g then write_ff (len_old g + S (nvars_old g) - 1 - len_old g) (cfs g1) (len_old g) 1 (linear_form_base_coef g) (field_char g)
                         else write_qq (len_old g + S (nvars_old g) - len_old g) (cfs g1) (len_old g) 1 (linear_form_base_coef g)) = Some c /\ length c = length (cfs g1)).
  { destruct (0 <? field_char g); [apply write_ff_total|apply write_qq_total]; try lia; intros; apply P; lia. }
  destruct R as (c & -> & Lcc). cbn [obind]. unfold set_num. destruct (nth_error c (len_old g + S (nvars_old g) - 1)) as [x|] eqn:Ex; [|apply nth_error_None in Ex; lia]. cbn [obind].
  destruct (aset_some c (len_old g + S (nvars_old g) - 1) (1, snd x) ltac:(lia)) as (l1 & -> & _). cbn [obind]. eauto.
Qed.

(** Random linear form *)
Lemma draw_ok fc rnd v r : draw fc rnd = Some (v, r) -> unit_coef fc v.
Proof.
  induction rnd as [|a rnd IH]; cbn [draw]; [discriminate|]. destruct (Z.eqb_spec (if 0 <? fc then Z.rem (wrap8 a) fc else wrap8 a) 0) as [E|E]; [apply IH|].
  intros H. injection H as <- <-. split; [exact E|]. intros Hf. apply Z.ltb_lt in Hf. rewrite Hf in *. right. apply Z.ltb_lt in Hf. assert (Q := Z.rem_bound_abs (wrap8 a) fc). lia.
Qed.
Lemma write_random_ok fc no ln : forall cnt (l pre : list coef) sum rnd c vs rest, length l = cnt -> (length pre + cnt = ln)%nat ->
  write_random cnt (pre ++ l) (length pre) ln no fc sum rnd = Some (c, vs, rest) ->
  c = pre ++ map (fun v => (v, 1)) vs /\ length vs = cnt /\ Forall (unit_coef fc) vs.
Proof.
  induction cnt as [|cnt IH]; intros l pre sum rnd c vs rest Hl Hn H; cbn [write_random] in H.
  - destruct l; [|discriminate]. injection H as <- <- <-. auto.
  - destruct l as [|x l]; [discriminate|]. destruct (draw fc rnd) as [[v r]|] eqn:Ed; [|discriminate]. cbn [obind fst snd] in H.
    replace (Z.of_nat (2 * length pre) <? 2 * Z.of_nat ln - 1) with true in H by (symmetry; apply Z.ltb_lt; lia).
    replace (if 0 <? fc then v else v) with v in H by (destruct (0 <? fc); reflexivity).
    replace (length pre) with (length pre + 0)%nat in H at 1 by lia. rewrite aset_app_r in H. cbn [aset obind] in H.
    change (pre ++ (v, 1) :: l) with (pre ++ [(v, 1)] ++ l) in H. rewrite app_assoc in H. replace (S (length pre)) with (length (pre ++ [(v, 1)])) in H by (rewrite app_length; cbn; lia).
    destruct (write_random cnt _ _ _ _ _ _ _) as [[[c2 vs2] rest2]|] eqn:Er; [|discriminate]. cbn [obind fst snd] in H. injection H as <- <- <-.
    apply IH in Er; [|cbn in Hl; lia|rewrite app_length; cbn; lia]. destruct Er as (-> & Lv & Fv). rewrite <- app_assoc. cbn. split; [reflexivity|]. split; [lia|]. constructor; [exact (draw_ok _ _ _ _ Ed)|assumption].
Qed.
Definition random_coefs (vs : list Z) : list coef := map (fun v => (v, 1)) vs.
Lemma random_coefs_ok fc vs : vs <> [] -> Forall (unit_coef fc) vs -> coefs_ok fc (random_coefs vs).
Proof.
  intros Hv Hf. split.
  - intros x Hx. apply in_map_iff in Hx. destruct Hx as (v & <- & _). reflexivity.
  - destruct (exists_last Hv) as (l & v & ->). exists v. unfold random_coefs. rewrite map_app. cbn [map]. rewrite last_last. split; [reflexivity|].
    apply Forall_app in Hf. destruct Hf as [_ Hf]. inversion Hf; assumption.
Qed.
Lemma add_random_ok g names s rnd b g' rest : (0 < nvars g)%nat -> form_stage g names s -> add_random_linear_form g rnd = Some (b, g', rest) ->
  b = true /\ nvars g' = S (nvars_old g) /\ linear_form_base_coef g' = linear_form_base_coef g + 1 /\ field_char g' = field_char g /\ rand_linear g' = true /\
  with_form g' names s (random_coefs (random_linear_form g')) /\ Forall (unit_coef (field_char g)) (random_linear_form g') /\ length (random_linear_form g') = S (nvars_old g).
Proof.
  intros Hn HS H. unfold add_random_linear_form in H. destruct (extend_form g names s Hn HS) as (g1 & cs & E & N & W & D & L1 & L2 & L3 & C & Lc & F1 & F2 & F3).
  rewrite E in H. cbn [obind] in H. rewrite C, L2, L1 in H. set (pre := flat_map (map fst) (ext_sys s)) in *.
  replace (length pre + S (nvars_old g) - length pre)%nat with (S (nvars_old g)) in H by lia.
  destruct (write_random _ _ _ _ _ _ _ _) as [[[c vs] r]|] eqn:Er; [|discriminate]. cbn [obind fst snd] in H. injection H as <- <- <-.
  apply write_random_ok in Er; [|assumption|lia]. destruct Er as (-> & Lv & Fv). cbn [nvars set_cfs linear_form_base_coef field_char rand_linear random_linear_form].
  repeat (split; [first [reflexivity|assumption|congruence]|]). split; [|split; assumption].
  apply (with_form_set g1 names s cs _ _ _ _ W). unfold random_coefs. rewrite map_length. congruence.
Qed.
