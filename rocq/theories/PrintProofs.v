(** Proofs about PrintModel. *)
From Coq Require Import String ZArith NArith Arith List Bool Ascii Lia.
From Verif Require Import ModInvModel ParseSpec ParseModel ParseProofs FglmModel MonoModel PrintSpec PrintModel.
Import ListNotations.
Local Open Scope string_scope.
Local Open Scope list_scope.
Open Scope Z_scope.

(** ** decimal digits *)
Lemma digit_chr m : 0 <= m < 10 -> is_digit (ascii_of_nat (Z.to_nat (48 + m))) = true /\ digit (ascii_of_nat (Z.to_nat (48 + m))) = m.
Proof.
  intros H. unfold is_digit, digit. rewrite nat_ascii_embedding by lia. split; [apply andb_true_intro; split; apply Nat.leb_le; lia|lia].
Qed.
Lemma dval_snoc d c : dval (d ++ [c]) = 10 * dval d + digit c.
Proof. unfold dval. rewrite fold_left_app. reflexivity. Qed.
Lemma dec_loop_ok f : forall n acc, 0 <= n < 2 ^ Z.of_nat (S f) -> exists d, dec_loop f n acc = d ++ acc /\ number d /\ dval d = n /\ (forall k, (0 < k)%nat -> n < 10 ^ Z.of_nat k -> (List.length d <= k)%nat).
Proof.
  induction f as [|f IH]; intros n acc H.
  - cbn in H. assert (E : n mod 10 = n) by (apply Z.mod_small; lia). cbn [dec_loop]. rewrite E. destruct (digit_chr n ltac:(lia)) as [D1 D2]. set (c := ascii_of_nat (Z.to_nat (48 + n))) in *. exists [c]. split; [reflexivity|]. split; [split; [discriminate|cbn; rewrite D1; reflexivity]|]. split; [unfold dval; cbn [fold_left]; lia|]. intros k Hk _. cbn. lia.
  - assert (M : 0 <= n mod 10 < 10) by (apply Z.mod_pos_bound; lia). destruct (digit_chr (n mod 10) M) as [D1 D2]. cbn [dec_loop]. set (c := ascii_of_nat (Z.to_nat (48 + n mod 10))) in *. destruct (Z.eqb_spec (n / 10) 0) as [E|E].
    + exists [c]. split; [reflexivity|]. split; [split; [discriminate|cbn; rewrite D1; reflexivity]|]. pose proof (Z.div_mod n 10 ltac:(lia)). split; [unfold dval; cbn [fold_left]; lia|]. intros k Hk _. cbn. lia.
    + assert (Q : 0 <= n / 10) by (apply Z.div_pos; lia). assert (Q2 : n / 10 < 2 ^ Z.of_nat (S f)).
      { apply Z.div_lt_upper_bound; [lia|]. rewrite Nat2Z.inj_succ, Z.pow_succ_r in H by lia. lia. }
      destruct (IH (n / 10) (c :: acc) (conj Q Q2)) as (d & E1 & [N1 N2] & E2 & E3). exists (d ++ [c]). split; [rewrite E1, <- app_assoc; reflexivity|]. split; [split; [destruct d; discriminate|rewrite forallb_app, N2; cbn; rewrite D1; reflexivity]|]. split.
      * rewrite dval_snoc, E2, D2. pose proof (Z.div_mod n 10 ltac:(lia)). lia.
      * intros k Hk Hn. rewrite app_length. cbn. destruct k as [|[|k]]; [lia| |].
        -- cbn in Hn. exfalso. apply E. apply Z.div_small. lia.
        -- assert (n / 10 < 10 ^ Z.of_nat (S k)). { apply Z.div_lt_upper_bound; [lia|]. rewrite Nat2Z.inj_succ, Z.pow_succ_r in Hn by lia. lia. } specialize (E3 (S k) ltac:(lia) H0). lia.
Qed.
Lemma dec_ok n : 0 <= n -> number (dec n) /\ dval (dec n) = n /\ (forall k, (0 < k)%nat -> n < 10 ^ Z.of_nat k -> (List.length (dec n) <= k)%nat).
Proof.
  intros H. unfold dec. assert (B : n < 2 ^ Z.of_nat (S (Z.to_nat (Z.log2 n)))).
  { rewrite Nat2Z.inj_succ, Z2Nat.id by apply Z.log2_nonneg. destruct (Z.eq_dec n 0) as [->|]; [cbn; lia|]. apply Z.log2_spec. lia. }
  destruct (dec_loop_ok (Z.to_nat (Z.log2 n)) n [] (conj H B)) as (d & E & N & V & L). rewrite E, app_nil_r. auto.
Qed.

(** ** factors of a monomial *)
Fixpoint facs (w : Z -> option str) (k : nat) (es : list Z) : list (nat * option str) :=
  match es with [] => [] | e :: r => if 0 <? e then (k, w e) :: facs w (S k) r else facs w (S k) r end.
Definition val (x : option str) : Z := match x with None => 1 | Some d => dval d end.
Lemma facs_in w es : forall k f, In f (facs w k es) -> (k <= fst f < k + List.length es)%nat /\ exists e, 0 < e /\ In e es /\ snd f = w e.
Proof.
  induction es as [|e es IH]; intros k f H; [destruct H|]. cbn [facs] in H. assert (G : In f (facs w (S k) es) -> (k <= fst f < k + List.length (e :: es))%nat /\ exists e0, 0 < e0 /\ In e0 (e :: es) /\ snd f = w e0).
  { intros H'. destruct (IH _ _ H') as (A & x & B & C & D). split; [cbn; lia|]. exists x. split; [exact B|split; [right; exact C|exact D]]. }
  destruct (Z.ltb_spec 0 e); [|auto]. destruct H as [<-|H]; [|auto]. cbn. split; [lia|]. exists e. auto.
Qed.
Lemma facs_nodup w es : forall k, NoDup (map fst (facs w k es)).
Proof.
  induction es as [|e es IH]; intros k; [constructor|]. cbn [facs]. destruct (0 <? e); [|apply IH]. cbn. constructor; [|apply IH]. intros H. apply in_map_iff in H as (f & E & H). apply facs_in in H as [H _]. lia.
Qed.
Lemma facs_find w es : forall k j, find (fun f => (fst f =? j)%nat) (facs w k es) = if (k <=? j)%nat && (0 <? nth (j - k) es 0) then Some (j, w (nth (j - k) es 0)) else None.
Proof.
  induction es as [|e es IH]; intros k j.
  - cbn [facs find]. destruct (j - k)%nat; cbn [nth]; rewrite andb_false_r; reflexivity.
  - cbn [facs]. assert (R : j <> k -> (if (S k <=? j)%nat && (0 <? nth (j - S k) es 0) then Some (j, w (nth (j - S k) es 0)) else None) = (if (k <=? j)%nat && (0 <? nth (j - k) (e :: es) 0) then Some (j, w (nth (j - k) (e :: es) 0)) else None)).
    { intros NE. destruct (Nat.leb_spec (S k) j); destruct (Nat.leb_spec k j); try lia; [|reflexivity]. replace (j - k)%nat with (S (j - S k)) by lia. reflexivity. }
    destruct (Z.ltb_spec 0 e).
    + cbn [find fst]. destruct (Nat.eqb_spec k j) as [->|NE].
      * rewrite Nat.leb_refl, Nat.sub_diag. cbn [nth andb]. destruct (Z.ltb_spec 0 e); [reflexivity|lia].
      * rewrite IH. apply R. congruence.
    + rewrite IH. destruct (Nat.eq_dec j k) as [->|NE]; [|apply R; exact NE]. rewrite Nat.leb_refl, Nat.sub_diag. cbn [nth andb]. destruct (Z.ltb_spec 0 e); [lia|]. destruct (Nat.leb_spec (S k) k); [lia|reflexivity].
Qed.
Definition mkt (neg : bool) (c : option (str * option str)) (w : Z -> option str) (es : list Z) : term := {| t_neg := neg; t_coef := c; t_fac := facs w 0 es |}.
Definition w_ok (w : Z -> option str) : Prop := forall e, 0 < e -> val (w e) = e /\ forall d, w e = Some d -> number d.
Lemma mkt_exps neg c w es : w_ok w -> (forall e, In e es -> 0 <= e) -> t_exps (List.length es) (mkt neg c w es) = es.
Proof.
  intros W H. unfold t_exps. apply (nth_ext _ _ 0 0); [rewrite map_length, seq_length; reflexivity|]. intros j Hj. rewrite map_length, seq_length in Hj. rewrite nth_map_seq' by exact Hj. cbn [t_fac mkt]. rewrite facs_find. rewrite Nat.sub_0_r. cbn [Nat.leb andb].
  assert (I : In (nth j es 0) es) by (apply nth_In; exact Hj). specialize (H _ I). destruct (Z.ltb_spec 0 (nth j es 0)) as [P|P]; [|lia]. destruct (W _ P) as [V _]. unfold val in V. destruct (w (nth j es 0)); lia.
Qed.
Definition coef_ok (c : option (str * option str)) : Prop := forall n d, c = Some (n, d) -> number n /\ forall d', d = Some d' -> number d'.
Lemma facs_nonempty w es : forall k, (exists e, In e es /\ 0 < e) -> facs w k es <> [].
Proof.
  induction es as [|e es IH]; intros k (x & H & P); [destruct H|]. cbn [facs]. destruct (Z.ltb_spec 0 e); [discriminate|]. apply IH. destruct H as [<-|H]; [lia|]. exists x. auto.
Qed.
Lemma mkt_ok neg c w es nv : w_ok w -> coef_ok c -> List.length es = nv -> (c <> None \/ exists e, In e es /\ 0 < e) -> term_ok nv (mkt neg c w es).
Proof.
  intros W C L NE. split; [|split; [exact C|split]].
  - cbn. destruct NE as [NE|NE]; [left; exact NE|right; apply facs_nonempty; exact NE].
  - cbn. intros k e H. apply facs_in in H as (A & x & B & _ & D). cbn in A, D. split; [lia|]. intros d E. apply (W x B). congruence.
  - cbn. apply facs_nodup.
Qed.
Lemma mkt_fit neg c w es : w_ok w -> (forall e, In e es -> e < 2 ^ 31) -> exps_fit (mkt neg c w es).
Proof.
  intros W B k d H. cbn in H. apply facs_in in H as (_ & x & P & I & E). cbn in E. destruct (W x P) as [V _]. unfold val in V. rewrite <- E in V. rewrite V. apply B. exact I.
Qed.

(** ** texts of terms *)
Lemma join_cons c s l : join c (s :: l) = s ++ concat (map (cons c) l).
Proof. revert s. induction l as [|t l IH]; intros s; [cbn; rewrite app_nil_r; reflexivity|]. change (join c (s :: t :: l)) with (s ++ c :: join c (t :: l)). rewrite IH. reflexivity. Qed.
Definition stars (names : list str) (fs : list (nat * option str)) : str := concat (map (cons "*"%char) (map (text_fac names) fs)).
Lemma body_some names neg c w es : text_body names (mkt neg (Some c) w es) = text_coef c ++ stars names (facs w 0 es).
Proof. unfold text_body, segments. cbn [t_coef t_fac mkt app]. rewrite join_cons. reflexivity. Qed.
Definition wff (e : Z) : option str := Some (dec e).
Definition wqq (e : Z) : option str := if e =? 1 then None else Some (dec e).
Lemma wff_ok : w_ok wff.
Proof. intros e H. destruct (dec_ok e ltac:(lia)) as (A & B & _). split; [exact B|]. intros d E. injection E as <-. exact A. Qed.
Lemma wqq_ok : w_ok wqq.
Proof.
  intros e H. unfold wqq. destruct (Z.eqb_spec e 1) as [->|]; [split; [reflexivity|discriminate]|]. destruct (dec_ok e ltac:(lia)) as (A & B & _). split; [exact B|]. intros d E. injection E as <-. exact A.
Qed.
(** exponents read from a row of the hash table *)
Definition row_ok (ix : list nat) (ev : list N) (es : list N) (k : nat) : Prop := forall j, (j < List.length es)%nat -> exists i, nth_error ix (k + j) = Some i /\ nth_error ev i = Some (nth j es 0%N).
Lemma row_ok_cons ix ev e es k : row_ok ix ev (e :: es) k -> (exists i, nth_error ix k = Some i /\ nth_error ev i = Some e) /\ row_ok ix ev es (S k).
Proof.
  intros H. split.
  - destruct (H 0%nat ltac:(cbn; lia)) as (i & A & B). rewrite Nat.add_0_r in A. exists i. auto.
  - intros j Hj. destruct (H (S j) ltac:(cbn; lia)) as (i & A & B). exists i. replace (S k + j)%nat with (k + S j)%nat by lia. auto.
Qed.
Lemma fac_some names k e : text_fac names (k, wff e) = nth k names [] ++ "^"%char :: dec e.
Proof. reflexivity. Qed.
Lemma starred_ok names ix ev es : forall k, row_ok ix ev es k -> (k + List.length es <= List.length names)%nat ->
  starred names ev k (List.length es) ix = Some (stars names (facs wff k (map Z.of_N es))).
Proof.
  induction es as [|e es IH]; intros k H L; [reflexivity|]. destruct (row_ok_cons _ _ _ _ _ H) as [(i & A & B) H']. cbn [List.length] in *. cbn [starred]. rewrite A. cbn [obind]. rewrite B. cbn [obind]. rewrite (IH (S k) H' ltac:(lia)). cbn [obind map facs].
  destruct (N.eqb_spec e 0) as [->|NE]; [reflexivity|]. destruct (Z.ltb_spec 0 (Z.of_N e)); [|lia]. rewrite (nth_error_nth' names [] ) by lia. cbn [obind]. unfold stars. cbn [map concat]. rewrite fac_some. unfold pow_text. cbn [app]. rewrite <- !app_assoc. reflexivity.
Qed.
Lemma plain_ok names ix ev es : forall k, row_ok ix ev es k -> (k + List.length es <= List.length names)%nat ->
  plain names ev k (List.length es) ix = Some (join "*" (map (text_fac names) (facs wff k (map Z.of_N es)))).
Proof.
  induction es as [|e es IH]; intros k H L; [reflexivity|]. destruct (row_ok_cons _ _ _ _ _ H) as [(i & A & B) H']. cbn [List.length] in *. cbn [plain]. rewrite A. cbn [obind]. rewrite B. cbn [obind map facs].
  destruct (N.eqb_spec e 0) as [->|NE]; [apply IH; [exact H'|lia]|]. destruct (Z.ltb_spec 0 (Z.of_N e)); [|lia]. rewrite (nth_error_nth' names [] ) by lia. cbn [obind]. rewrite (starred_ok names ix ev es (S k) H' ltac:(lia)). cbn [obind map]. rewrite join_cons. reflexivity.
Qed.
Lemma seq_nth_error a n j : (j < n)%nat -> nth_error (seq a n) j = Some (a + j)%nat.
Proof. intros H. rewrite (nth_error_nth' _ 0%nat) by (rewrite seq_length; exact H). rewrite seq_nth by exact H. reflexivity. Qed.
Lemma evi_ok nv nev e ev : stored nev e ev -> List.length e = nv -> (nev <= nv)%nat -> row_ok (evi nv nev) ev e 0.
Proof.
  intros S L LE j Hj. rewrite Nat.add_0_l. unfold evi, ht_ebl, ht_evl, stored in *. destruct (Nat.eqb_spec nev 0) as [E0|NE].
  - destruct S as [d ->]. cbn [Nat.eqb]. exists (1 + j)%nat. split; [apply seq_nth_error; lia|]. cbn. apply nth_error_nth'. exact Hj.
  - destruct S as (d1 & d2 & ->). destruct (Nat.eqb_spec (nev + 1) 0); [lia|]. assert (F : List.length (firstn nev e) = nev) by (rewrite firstn_length; lia). replace (nev + 1 - 1)%nat with nev by lia. destruct (Nat.lt_ge_cases j nev) as [A|A].
    + exists (1 + j)%nat. split; [rewrite nth_error_app1 by (rewrite seq_length; lia); apply seq_nth_error; exact A|]. cbn. rewrite nth_error_app1 by lia. rewrite (nth_error_nth' _ 0%N) by lia. rewrite <- (firstn_skipn nev e) at 2. rewrite app_nth1 by lia. reflexivity.
    + exists (nev + 1 + 1 + (j - nev))%nat. split; [rewrite nth_error_app2 by (rewrite seq_length; lia); rewrite seq_length; apply seq_nth_error; lia|]. replace (nev + 1 + 1 + (j - nev))%nat with (S (nev + S (j - nev))) by lia. cbn [nth_error]. rewrite nth_error_app2 by lia. rewrite F. replace (nev + S (j - nev) - nev)%nat with (S (j - nev)) by lia. cbn [nth_error].
      rewrite (nth_error_nth' _ 0%N) by (rewrite skipn_length; lia). rewrite <- (firstn_skipn nev e) at 2. rewrite app_nth2 by lia. rewrite F. reflexivity.
Qed.

(** ** polynomials modulo p *)
(** the terms: coefficients and exponents *)
Definition tff (x : N * list N) : term := mkt false (Some (dec (Z.of_N (fst x)), None)) wff (map Z.of_N (snd x)).
Definition held (nv nev : nat) (P : list (N * list N)) (g : pol) : Prop := Forall2 (fun x y => fst y = fst x /\ List.length (snd x) = nv /\ stored nev (snd x) (snd y)) P g.
Lemma tff_body names x : text_body names (tff x) = dec (Z.of_N (fst x)) ++ stars names (facs wff 0 (map Z.of_N (snd x))).
Proof. unfold tff. rewrite body_some. unfold text_coef. cbn [fst snd]. rewrite app_nil_r. reflexivity. Qed.
Lemma terms_ff_ok nv nev names P g : (nev <= nv)%nat -> List.length names = nv -> held nv nev P g -> terms_ff nv names (evi nv nev) g = Some (concat (map (text_term names) (map tff P))).
Proof.
  intros LE L H. induction H as [|x [c ev] P g (A & B & C) H IH]; [reflexivity|]. cbn [fst snd] in *. cbn [terms_ff]. rewrite <- B at 1. rewrite starred_ok; [|apply evi_ok; assumption|cbn; lia]. cbn [obind]. rewrite IH. cbn [obind map concat]. unfold text_term at 2. rewrite tff_body. cbn [t_neg tff mkt]. rewrite A. cbn [app]. rewrite <- app_assoc. reflexivity.
Qed.
Definition zero_term : term := {| t_neg := false; t_coef := Some (s_ "0", None); t_fac := [] |}.
Definition terms_of (P : option (list (N * list N))) : list term := match P with None => [zero_term] | Some P => map tff P end.
Definition held' (nv nev : nat) (P : option (list (N * list N))) (g : option pol) : Prop :=
  match P, g with None, None => True | Some P, Some g => P <> [] /\ held nv nev P g | _, _ => False end.
Lemma poly_text_ok nv nev names P g : (nev <= nv)%nat -> List.length names = nv -> held' nv nev P g -> poly_text nv names (evi nv nev) g = Some (text_poly names (terms_of P)).
Proof.
  intros LE L H. destruct P as [P|], g as [g|]; cbn [held'] in H; try contradiction; [|reflexivity]. destruct H as [NE H]. destruct H as [|x [c ev] P g (A & B & C) H]; [contradiction|]. cbn [fst snd] in *. cbn [poly_text]. rewrite <- B at 1. rewrite starred_ok; [|apply evi_ok; assumption|cbn; lia]. cbn [obind]. rewrite (terms_ff_ok nv nev names P g LE L H). cbn [obind terms_of map text_poly]. unfold text_first. cbn [t_neg tff mkt app]. fold (tff x). rewrite tff_body, A, <- app_assoc. reflexivity.
Qed.

(** ** the layout of a list of polynomials *)
Fixpoint laid (pad fin : str) (ts : list str) : str :=
  match ts with [] => [] | [t] => t ++ fin | t :: r => t ++ "," %char :: pad ++ nl :: laid pad fin r end.
Fixpoint us_of (pad fin pre : str) (ts : list str) : list str :=
  match ts with [] => [] | [t] => [pre ++ t ++ fin] | t :: r => (pre ++ t) :: us_of pad fin (pad ++ [nl]) r end.
Lemma us_nonempty pad fin pre t r : us_of pad fin pre (t :: r) <> [].
Proof. destruct r; discriminate. Qed.
Lemma join_us pad fin ts : forall pre, ts <> [] -> join "," (us_of pad fin pre ts) = pre ++ laid pad fin ts.
Proof.
  induction ts as [|t ts IH]; intros pre NE; [contradiction|]. destruct ts as [|t' ts]; [reflexivity|]. change (us_of pad fin pre (t :: t' :: ts)) with ((pre ++ t) :: us_of pad fin (pad ++ [nl]) (t' :: ts)). change (laid pad fin (t :: t' :: ts)) with (t ++ "," %char :: pad ++ nl :: laid pad fin (t' :: ts)).
  specialize (IH (pad ++ [nl]) ltac:(discriminate)). pose proof (us_nonempty pad fin (pad ++ [nl]) t' ts) as N. remember (us_of pad fin (pad ++ [nl]) (t' :: ts)) as us. destruct us as [|u us]; [contradiction|]. change (join "," ((pre ++ t) :: u :: us)) with ((pre ++ t) ++ "," %char :: join "," (u :: us)). rewrite IH, <- !app_assoc. reflexivity.
Qed.
Definition clean (t : str) : Prop := forall c, In c t -> is_space c = false.
Lemma clean_unblank t : clean t -> unblank t = t.
Proof.
  induction t as [|c t IH]; intros H; [reflexivity|]. cbn. specialize (H c (or_introl eq_refl)) as Hc. assert (B : blank c = false).
  { unfold is_space in Hc. unfold blank. apply orb_false_iff in Hc as [A B]. apply andb_false_iff in B. apply orb_false_iff. split; [apply orb_false_iff; split; apply Nat.eqb_neq; intros E; rewrite E in B; cbn in B; destruct B; discriminate|exact A]. }
  rewrite B. cbn. f_equal. apply IH. intros x Hx. apply H. right. exact Hx.
Qed.
Lemma unblank_app a b : unblank (a ++ b) = unblank a ++ unblank b.
Proof. unfold unblank. apply filter_app. Qed.
Lemma us_unblank pad fin ts : unblank pad = [] -> unblank fin = [] -> forall pre, unblank pre = [] -> Forall clean ts -> Forall2 (fun u t => unblank u = t) (us_of pad fin pre ts) ts.
Proof.
  intros Hp Hf. induction ts as [|t ts IH]; intros pre Hpre HC; [constructor|]. inversion HC as [|? ? C1 C2]; subst. destruct ts as [|t' ts].
  - cbn [us_of]. constructor; [|constructor]. rewrite !unblank_app, Hpre, Hf, app_nil_r. apply clean_unblank. exact C1.
  - change (us_of pad fin pre (t :: t' :: ts)) with ((pre ++ t) :: us_of pad fin (pad ++ [nl]) (t' :: ts)). constructor; [rewrite unblank_app, Hpre; apply clean_unblank; exact C1|]. apply IH; [rewrite unblank_app, Hp; reflexivity|exact C2].
Qed.
Lemma lines_cut a r : ~ In nl a -> lines (a ++ nl :: r) = a :: lines r.
Proof.
  induction a as [|c a IH]; intros H; cbn [app lines].
  - rewrite (proj2 (Ascii.eqb_eq nl nl)) by reflexivity. reflexivity.
  - rewrite IH by (intros X; apply H; right; exact X). destruct (Ascii.eqb_spec c nl) as [->|]; [exfalso; apply H; left; reflexivity|reflexivity].
Qed.
Lemma lines_one a : ~ In nl a -> lines a = [a].
Proof.
  induction a as [|c a IH]; intros H; [reflexivity|]. cbn [lines]. rewrite IH by (intros X; apply H; right; exact X). destruct (Ascii.eqb_spec c nl) as [->|]; [exfalso; apply H; left; reflexivity|reflexivity].
Qed.
Lemma clean_nl t : clean t -> ~ In nl t.
Proof. intros H I. specialize (H _ I). discriminate H. Qed.
Lemma clean_written t r : clean t -> t <> [] -> written (t ++ r) = true.
Proof. intros H NE. destruct t as [|c t]; [contradiction|]. unfold written. cbn. rewrite (H c (or_introl eq_refl)). reflexivity. Qed.
Lemma laid_lines pad fin ts : ~ In nl pad -> (fin = [] \/ fin = [nl]) -> ts <> [] -> Forall clean ts -> Forall (fun t => t <> []) ts -> List.length (filter written (lines (laid pad fin ts))) = List.length ts.
Proof.
  intros Hp Hf. induction ts as [|t ts IH]; intros NE HC HN; [contradiction|]. inversion HC as [|? ? C1 C2]; subst. inversion HN as [|? ? N1 N2]; subst. destruct ts as [|t' ts].
  - cbn [laid]. destruct Hf as [-> | ->].
    + rewrite app_nil_r, lines_one by (apply clean_nl; exact C1). cbn [filter]. rewrite <- (app_nil_r t), clean_written by assumption. reflexivity.
    + rewrite lines_cut by (apply clean_nl; exact C1). cbn [filter lines]. rewrite <- (app_nil_r t), clean_written by assumption. reflexivity.
  - change (laid pad fin (t :: t' :: ts)) with (t ++ "," %char :: pad ++ nl :: laid pad fin (t' :: ts)). replace (t ++ "," %char :: pad ++ nl :: laid pad fin (t' :: ts)) with ((t ++ "," %char :: pad) ++ nl :: laid pad fin (t' :: ts)) by (rewrite <- app_assoc; reflexivity).
    rewrite lines_cut; [|intros I; apply in_app_or in I as [I|[I|I]]; [exact (clean_nl t C1 I)|discriminate I|contradiction]]. cbn [filter]. rewrite clean_written by assumption. cbn [List.length]. f_equal. apply IH; [discriminate|assumption|assumption].
Qed.
Lemma laid_lists names pad fin Ps : ~ In nl pad -> unblank pad = [] -> (fin = [] \/ fin = [nl]) -> Ps <> [] -> (forall P, In P Ps -> clean (text_poly names P) /\ text_poly names P <> []) ->
  lists names (laid pad fin (map (text_poly names) Ps)) Ps.
Proof.
  intros H1 H2 H3 NE HP. assert (NE' : map (text_poly names) Ps <> []) by (destruct Ps; [contradiction|discriminate]).
  assert (C : Forall clean (map (text_poly names) Ps)) by (apply Forall_forall; intros t Ht; apply in_map_iff in Ht as (P & <- & I); apply HP; exact I).
  assert (C' : Forall (fun t => t <> []) (map (text_poly names) Ps)) by (apply Forall_forall; intros t Ht; apply in_map_iff in Ht as (P & <- & I); apply HP; exact I).
  exists (us_of pad fin [] (map (text_poly names) Ps)). split; [rewrite join_us by exact NE'; reflexivity|]. split.
  - assert (F := us_unblank pad fin (map (text_poly names) Ps) H2 ltac:(destruct H3 as [-> | ->]; reflexivity) [] eq_refl C). clear -F. remember (us_of pad fin [] (map (text_poly names) Ps)) as us eqn:Hus. clear Hus. revert us F. induction Ps as [|P Ps IH]; intros us F; inversion F; subst; constructor; [assumption|apply IH; assumption].
  - rewrite laid_lines by assumption. apply map_length.
Qed.
Lemma clean_poly names P : names_ok names -> P <> [] -> (forall t, In t P -> term_ok (List.length names) t /\ exps_fit t) -> clean (text_poly names P) /\ text_poly names P <> [].
Proof.
  intros HN NE HP.
  assert (CB : forall t, In t P -> clean (text_body names t)).
  { intros t Ht c Hc. destruct (HP t Ht) as [A B]. destruct (body_chars names t c HN A B Hc) as [H|[->| ->]]; [|reflexivity|reflexivity]. unfold special in H. apply orb_false_iff in H. apply H. }
  assert (CT : forall t, In t P -> clean (text_term names t)).
  { intros t Ht c Hc. unfold text_term in Hc. destruct Hc as [<-|Hc]; [destruct (t_neg t); reflexivity|exact (CB t Ht c Hc)]. }
  destruct P as [|t P]; [contradiction|]. split.
  - intros c Hc. cbn [text_poly] in Hc. apply in_app_or in Hc as [Hc|Hc].
    + unfold text_first in Hc. apply in_app_or in Hc as [Hc|Hc]; [destruct (t_neg t); [destruct Hc as [<-|[]]; reflexivity|destruct Hc]|exact (CB t (or_introl eq_refl) c Hc)].
    + apply in_concat in Hc as (x & Hx & Hc). apply in_map_iff in Hx as (u & <- & Hu). exact (CT u (or_intror Hu) c Hc).
  - cbn [text_poly]. unfold text_first. intros E. apply app_eq_nil in E as [E _]. apply app_eq_nil in E as [_ E]. exact (body_nonempty names t HN (proj1 (HP t (or_introl eq_refl))) E).
Qed.

(** ** the whole output modulo p *)
Lemma polys_text_ok nv nev names Ps gs : (nev <= nv)%nat -> List.length names = nv -> Forall2 (held' nv nev) Ps gs -> Ps <> [] ->
  polys_text nv names (evi nv nev) gs = Some (laid [] [] (map (text_poly names) (map terms_of Ps)) ++ line "]:").
Proof.
  intros LE L F. induction F as [|P g Ps gs H F IH]; intros NE; [contradiction|]. cbn [polys_text]. rewrite (poly_text_ok nv nev names P g LE L H). cbn [obind]. destruct F as [|P' g' Ps gs H' F].
  - cbn [polys_text obind map laid sep]. rewrite !app_nil_r. reflexivity.
  - rewrite IH by discriminate. cbn [obind sep]. change (map (text_poly names) (map terms_of (P :: P' :: Ps))) with (text_poly names (terms_of P) :: text_poly names (terms_of P') :: map (text_poly names) (map terms_of Ps)). change (map (text_poly names) (map terms_of (P' :: Ps))) with (text_poly names (terms_of P') :: map (text_poly names) (map terms_of Ps)).
    change (laid [] [] (?t :: ?t' :: ?r)) with (t ++ "," %char :: nl :: laid [] [] (t' :: r)). rewrite <- !app_assoc. reflexivity.
Qed.
Definition tlead (e : list N) : term := mkt false None wff (map Z.of_N e).
Lemma leads_text_ok nv nev names Ls gs : (nev <= nv)%nat -> List.length names = nv -> Forall2 (fun e g => List.length e = nv /\ exists c ev r, g = Some ((c, ev) :: r) /\ stored nev e ev) Ls gs -> Ls <> [] ->
  leads_text nv names (evi nv nev) gs = Some (laid [] [] (map (text_poly names) (map (fun e => [tlead e]) Ls)) ++ line "]:").
Proof.
  intros LE L F. induction F as [|e g Ls gs (HL & c & ev & r & -> & HS) F IH]; intros NE; [contradiction|]. cbn [leads_text]. rewrite <- HL at 1. rewrite (plain_ok names (evi nv nev) ev e 0); [|apply evi_ok; assumption|cbn; lia]. cbn [obind].
  assert (ET : join "*" (map (text_fac names) (facs wff 0 (map Z.of_N e))) = text_poly names [tlead e]) by (cbn [text_poly map concat]; unfold text_first; cbn [t_neg tlead mkt app]; rewrite app_nil_r; reflexivity). rewrite ET. destruct F as [|e' g' Ls gs H' F].
  - cbn [leads_text obind map laid sep]. rewrite !app_nil_r. reflexivity.
  - rewrite IH by discriminate. cbn [obind sep]. change (map (text_poly names) (map (fun e => [tlead e]) (e :: e' :: Ls))) with (text_poly names [tlead e] :: text_poly names [tlead e'] :: map (text_poly names) (map (fun e => [tlead e]) Ls)). change (map (text_poly names) (map (fun e => [tlead e]) (e' :: Ls))) with (text_poly names [tlead e'] :: map (text_poly names) (map (fun e => [tlead e]) Ls)).
    change (laid [] [] (?t :: ?t' :: ?r)) with (t ++ "," %char :: nl :: laid [] [] (t' :: r)). rewrite <- !app_assoc. reflexivity.
Qed.

(** lengths *)
Lemma stars_length names w es B : names_short names -> (forall e, In e es -> 0 < e -> match w e with None => True | Some d => (List.length d <= B)%nat end) -> forall k, (List.length (stars names (facs w k es)) <= (49 + B) * List.length es)%nat.
Proof.
  intros HN. induction es as [|e es IH]; intros HB k; [cbn; lia|]. cbn [facs]. specialize (IH (fun x Hx => HB x (or_intror Hx)) (S k)). destruct (Z.ltb_spec 0 e).
  - unfold stars. cbn [map concat List.length]. rewrite app_length. fold (stars names (facs w (S k) es)). cbn [List.length]. unfold text_fac. cbn [fst snd]. rewrite app_length. assert (LN : (List.length (nth k names []) <= 47)%nat).
    { destruct (Nat.lt_ge_cases k (List.length names)); [apply HN; apply nth_In; assumption|rewrite nth_overflow by assumption; cbn; lia]. }
    specialize (HB e (or_introl eq_refl) H). destruct (w e); cbn [List.length]; lia.
  - cbn [List.length]. lia.
Qed.
Lemma pow10_5 : 2 ^ 16 < 10 ^ Z.of_nat 5. Proof. reflexivity. Qed.
Lemma pow10_10 : 2 ^ 31 < 10 ^ Z.of_nat 10. Proof. reflexivity. Qed.
Definition coded (nv : nat) (p : Z) (x : N * list N) : Prop := 0 < Z.of_N (fst x) < p /\ List.length (snd x) = nv /\ forall e, In e (snd x) -> (e < 2 ^ 16)%N.
Lemma wff_len (es : list N) : (forall e, In e es -> (e < 2 ^ 16)%N) -> forall e, In e (map Z.of_N es) -> 0 < e -> match wff e with None => True | Some d => (List.length d <= 5)%nat end.
Proof. intros H e He P. cbn. apply in_map_iff in He as (x & <- & Hx). specialize (H x Hx). apply dec_ok; [lia|lia|]. pose proof pow10_5. change (2 ^ 16)%N with 65536%N in H. lia. Qed.
Lemma tff_good names p x : names_short names -> (List.length names <= 900)%nat -> p < 2 ^ 31 -> coded (List.length names) p x -> good names (tff x) /\ ff_first (tff x) /\ ff_next (tff x) /\ denotes (List.length names) (tff x) (Z.of_N (fst x), 1) (map Z.of_N (snd x)).
Proof.
  intros HS HL Hp (C1 & C2 & C3). destruct (dec_ok (Z.of_N (fst x)) ltac:(lia)) as (D1 & D2 & D3).
  split; [split; [|split]|split; [|split]].
  - apply mkt_ok; [apply wff_ok|intros n d E; injection E as <- <-; split; [exact D1|discriminate]|rewrite map_length; exact C2|left; discriminate].
  - apply mkt_fit; [apply wff_ok|]. intros e He. apply in_map_iff in He as (y & <- & Hy). specialize (C3 y Hy). change (2 ^ 16)%N with 65536%N in C3. lia.
  - unfold short, text_term. rewrite tff_body. cbn [List.length]. rewrite app_length. specialize (D3 10%nat ltac:(lia) ltac:(pose proof pow10_10; lia)). pose proof (stars_length names wff (map Z.of_N (snd x)) 5 HS (wff_len (snd x) C3) 0) as SL. rewrite map_length, C2 in SL. lia.
  - intros n d E. injection E as <- <-. split; [reflexivity|]. rewrite D2. split; [lia|reflexivity].
  - intros n d E. injection E as <- <-. split; [reflexivity|]. rewrite D2. lia.
  - split; [|split].
    + unfold t_num, t_sign. cbn [t_neg t_coef tff mkt fst]. rewrite D2. lia.
    + reflexivity.
    + rewrite <- C2, <- (map_length Z.of_N (snd x)). apply mkt_exps; [apply wff_ok|]. intros e He. apply in_map_iff in He as (y & <- & _). lia.
Qed.
Lemma zero_good names : good names zero_term /\ ff_first zero_term /\ denotes (List.length names) zero_term (0, 1) (repeat 0 (List.length names)).
Proof.
  split; [split; [|split]|split].
  - split; [left; discriminate|]. split; [intros n d E; injection E as <- <-; split; [split; [discriminate|reflexivity]|discriminate]|]. split; [intros k e []|constructor].
  - intros k d [].
  - unfold short. vm_compute. discriminate.
  - intros n d E. injection E as <- <-. split; [reflexivity|]. split; [reflexivity|reflexivity].
  - split; [reflexivity|]. split; [reflexivity|]. unfold t_exps. cbn [zero_term t_fac find]. generalize (List.length names). intros n. generalize 0%nat. induction n as [|n IH]; intros k; [reflexivity|]. cbn. f_equal. apply IH.
Qed.
Lemma tlead_good names e : names_short names -> (List.length names <= 900)%nat -> List.length e = List.length names -> (forall x, In x e -> (x < 2 ^ 16)%N) -> (exists x, In x e /\ x <> 0%N) -> good names (tlead e) /\ ff_first (tlead e) /\ denotes (List.length names) (tlead e) (1, 1) (map Z.of_N e).
Proof.
  intros HS HL C2 C3 (x & X1 & X2). split; [split; [|split]|split; [|split; [|split]]].
  - apply mkt_ok; [apply wff_ok|discriminate|rewrite map_length; exact C2|]. right. exists (Z.of_N x). split; [apply in_map; exact X1|lia].
  - apply mkt_fit; [apply wff_ok|]. intros y He. apply in_map_iff in He as (z & <- & Hy). specialize (C3 z Hy). change (2 ^ 16)%N with 65536%N in C3. lia.
  - unfold short, text_term. cbn [List.length]. unfold text_body, segments. cbn [t_coef t_fac tlead mkt app]. pose proof (stars_length names wff (map Z.of_N e) 5 HS (wff_len e C3) 0) as SL. rewrite map_length, C2 in SL.
    assert (JL : forall l, (List.length (join "*" l) <= List.length (concat (map (cons "*"%char) l)))%nat). { intros [|t l]; [cbn; lia|]. rewrite join_cons. cbn [map concat]. rewrite !app_length. cbn [List.length]. lia. }
    specialize (JL (map (text_fac names) (facs wff 0 (map Z.of_N e)))). unfold stars in SL. lia.
  - intros n d E. discriminate E.
  - reflexivity.
  - reflexivity.
  - rewrite <- C2, <- (map_length Z.of_N e). apply mkt_exps; [apply wff_ok|]. intros y He. apply in_map_iff in He as (z & <- & _). lia.
Qed.

(** ** files *)
Lemma name_nonl n : name n -> ~ In nl n.
Proof. intros H I. pose proof (name_chars n nl H I) as X. discriminate X. Qed.
Lemma names_nonl names : names_ok names -> ~ In nl (join "," names).
Proof. intros [_ H] I. apply join_in in I as [E|(s & Hs & I)]; [discriminate E|]. exact (name_nonl s (H s Hs) I). Qed.
Lemma digits_nonl d : number d -> ~ In nl d.
Proof. intros [_ H] I. rewrite forallb_forall in H. specialize (H _ I). discriminate H. Qed.
Lemma padded_self n : padded n n.
Proof. exists [], []. rewrite app_nil_r. auto. Qed.
Lemma file_lists names ds body Ps p : names_ok names -> names_short names -> number ds -> dval ds = p -> lists names body Ps -> file_text (file_of names ds body) names p Ps.
Proof.
  intros HN HS ND DV (us & E & F & L). exists (join "," names), ds, body, names, ds, us. split; [reflexivity|]. split; [apply names_nonl; exact HN|]. split; [apply digits_nonl; exact ND|]. split; [reflexivity|]. split; [clear; induction names; constructor; [apply padded_self|assumption]|]. split; [exact HS|]. split; [apply padded_self|]. auto.
Qed.

(** comments *)
Lemma comments_app a b : comments a -> comments b -> comments (a ++ b).
Proof.
  intros (l1 & E1 & N1) (l2 & E2 & N2). exists (l1 ++ l2). split; [rewrite map_app, concat_app; congruence|]. intros l H. apply in_app_or in H as [H|H]; auto.
Qed.
Lemma comment_line l : ~ In nl l -> comments ("#"%char :: l ++ [nl]).
Proof. intros H. exists [l]. split; [cbn; rewrite app_nil_r; reflexivity|]. intros x [<-|[]]. exact H. Qed.
Lemma comment_line' a l : (forall x, In x a -> x <> nl) -> a = "#"%char :: tl a -> ~ In nl l -> comments (a ++ l ++ [nl]).
Proof.
  intros H E NL. rewrite E. cbn [app]. rewrite app_assoc. apply comment_line. intros I. apply in_app_or in I as [I|I]; [|exact (NL I)]. apply (H nl); [|reflexivity]. rewrite E. right. exact I.
Qed.
Lemma comments_nil : comments [].
Proof. exists []. split; [reflexivity|intros l []]. Qed.
Lemma nonl_b (a : str) : forallb (fun c => negb (Ascii.eqb c nl)) a = true -> forall x, In x a -> x <> nl.
Proof. intros H x I ->. rewrite forallb_forall in H. specialize (H _ I). rewrite (proj2 (Ascii.eqb_eq nl nl) eq_refl) in H. discriminate. Qed.
Lemma order_text_eq names : names <> [] -> exists r, order_text names = r ++ [nl] /\ (forall c, In c r -> c = "," %char \/ c = " "%char \/ exists n, In n names /\ In c n).
Proof.
  induction names as [|n names IH]; intros NE; [contradiction|]. destruct names as [|n' names].
  - exists n. split; [reflexivity|]. intros c H. right. right. exists n. split; [left; reflexivity|exact H].
  - destruct (IH ltac:(discriminate)) as (r & E & H). exists (n ++ s_ ", " ++ r). split; [change (order_text (n :: n' :: names)) with (n ++ s_ ", " ++ order_text (n' :: names)); rewrite E, !app_assoc; reflexivity|]. intros c I. apply in_app_or in I as [I|I]; [right; right; exists n; split; [left; reflexivity|exact I]|]. apply in_app_or in I as [I|I].
    + destruct I as [<-|[<-|[]]]; auto.
    + destruct (H c I) as [->|[->|(m & M1 & M2)]]; auto. right. right. exists m. split; [right; exact M1|exact M2].
Qed.
Lemma order_comment names : names <> [] -> (forall n, In n names -> name n) -> comments (s_ "#variable order:       " ++ order_text names).
Proof.
  intros NE HN. destruct (order_text_eq names NE) as (r & -> & H). apply comment_line'; [apply nonl_b; reflexivity|reflexivity|]. intros I. destruct (H _ I) as [E|[E|(n & M1 & M2)]]; [discriminate E|discriminate E|]. exact (name_nonl n (HN n M1) M2).
Qed.
Ltac cline := match goal with |- comments (line ?x) => unfold line; rewrite <- (app_nil_l [nl]); apply (comment_line' (s_ x) []); [apply nonl_b; reflexivity|reflexivity|intros []] end.
Lemma length_comment n : comments (length_text n).
Proof.
  unfold length_text. destruct (n =? 1)%nat; [cline|]. unfold line. rewrite app_assoc with (l := dec (Z.of_nat n)). apply comment_line'; [apply nonl_b; reflexivity|reflexivity|]. intros I. apply in_app_or in I as [I|I]; [exact (digits_nonl _ (proj1 (dec_ok (Z.of_nat n) ltac:(lia))) I)|]. exact (nonl_b (s_ " elements sorted by increasing leading monomials") eq_refl nl I eq_refl).
Qed.
Lemma header_ff_ok lead p nv nev names lml : 0 <= p -> (0 < nv)%nat -> List.length names = nv -> (forall n, In n names -> name n) -> exists h, header_ff lead p nv nev names lml = Some h /\ comments h.
Proof.
  intros Hp N0 L HN. unfold header_ff. destruct (Nat.eqb_spec nv 0); [lia|]. destruct (Nat.ltb_spec (List.length names) nv); [lia|]. cbn [orb]. eexists. split; [reflexivity|]. rewrite <- L, firstn_all.
  apply comments_app; [destruct lead; cline|]. apply comments_app; [cline|]. rewrite app_assoc with (l := dec p). rewrite (app_assoc (s_ "#field characteristic: ")). apply comments_app.
  { apply comment_line'; [apply nonl_b; reflexivity|reflexivity|]. apply digits_nonl. apply dec_ok. exact Hp. }
  rewrite app_assoc. apply comments_app; [apply order_comment; [destruct names; [cbn in L; lia|discriminate]|exact HN]|]. apply comments_app; [|apply comments_app; [apply length_comment|cline]].
  destruct (nev =? 0)%nat; [cline|]. destruct (nev =? 1)%nat; [cline|]. unfold line. rewrite app_assoc with (l := dec (Z.of_nat nev)). apply comment_line'; [apply nonl_b; reflexivity|reflexivity|]. intros I. apply in_app_or in I as [I|I]; [exact (digits_nonl _ (proj1 (dec_ok (Z.of_nat nev) ltac:(lia))) I)|]. exact (nonl_b (s_ " variables, blocks: graded reverse lexicographical") eq_refl nl I eq_refl).
Qed.

(** ** over the rationals *)
Lemma hd_skipn {A} (l : list A) k : hd_error (skipn k l) = nth_error l k.
Proof. revert k. induction l as [|x l IH]; intros [|k]; try reflexivity. cbn. apply IH. Qed.
Lemma tl_skipn {A} (l : list A) k : tl (skipn k l) = skipn (S k) l.
Proof. revert k. induction l as [|x l IH]; intros [|k]; try reflexivity. cbn [skipn]. rewrite IH. reflexivity. Qed.
Lemma fac_qq names k e : 0 < e -> text_fac names (k, wqq e) = nth k names [] ++ (if e =? 1 then [] else "^"%char :: dec e).
Proof. intros H. unfold text_fac, wqq. cbn [fst snd]. destruct (e =? 1); reflexivity. Qed.
Lemma single_true names es : forall k, (k + List.length es <= List.length names)%nat -> single (skipn k names) es true = Some (stars names (facs wqq k es)).
Proof.
  induction es as [|e es IH]; intros k L; [reflexivity|]. cbn [List.length] in L. cbn [single]. rewrite hd_skipn, (nth_error_nth' names []) by lia. cbn [obind]. rewrite tl_skipn. cbn [facs]. destruct (Z.ltb_spec 0 e) as [P|P]; [|apply IH; lia]. rewrite IH by lia. cbn [obind]. unfold stars. cbn [map concat]. rewrite fac_qq by exact P. cbn [app]. rewrite <- app_assoc. reflexivity.
Qed.
Lemma single_false names es : forall k, (k + List.length es <= List.length names)%nat -> single (skipn k names) es false = Some (join "*" (map (text_fac names) (facs wqq k es))).
Proof.
  induction es as [|e es IH]; intros k L; [reflexivity|]. cbn [List.length] in L. cbn [single]. rewrite hd_skipn, (nth_error_nth' names []) by lia. cbn [obind]. rewrite tl_skipn. cbn [facs]. destruct (Z.ltb_spec 0 e) as [P|P]; [|apply IH; lia]. rewrite single_true by lia. cbn [obind map]. rewrite join_cons, fac_qq by exact P. cbn [app]. rewrite <- app_assoc. reflexivity.
Qed.
Definition positive (es : list Z) : bool := existsb (fun e => 0 <? e) es.
Definition tqq (x : (Z * Z) * list Z) : term :=
  mkt (fst (fst x) <? 0) (if (fst (fst x) =? 1) && (snd (fst x) =? 1) && positive (snd x) then None else Some (dec (Z.abs (fst (fst x))), if snd (fst x) =? 1 then None else Some (dec (snd (fst x))))) wqq (snd x).
Lemma positive_ex es : positive es = true <-> exists e, In e es /\ 0 < e.
Proof. unfold positive. rewrite existsb_exists. split; intros (e & H1 & H2); exists e; (split; [exact H1|]); apply Z.ltb_lt; exact H2. Qed.
Lemma facs_none w es : positive es = false -> forall k, facs w k es = [].
Proof.
  induction es as [|e es IH]; intros H k; [reflexivity|]. cbn in H. apply orb_false_iff in H as [H1 H2]. cbn [facs]. rewrite H1. apply IH. exact H2.
Qed.
Lemma facs_some w es : positive es = true -> forall k, exists f r, facs w k es = f :: r.
Proof. intros H k. apply positive_ex in H. pose proof (facs_nonempty w es k H) as N. destruct (facs w k es) as [|f r]; [contradiction|]. exists f, r. reflexivity. Qed.
Lemma num_abs n : n <> 0 -> num n = (if n <? 0 then ["-"%char] else []) ++ dec (Z.abs n).
Proof. intros H. unfold num. destruct (Z.ltb_spec n 0); cbn [app]; [rewrite Z.abs_neq by lia|rewrite Z.abs_eq by lia]; reflexivity. Qed.
(** the text of a term that is not constant *)
Lemma term_qq_ok names n d m : n <> 0 -> 0 < d -> positive m = true -> (List.length m <= List.length names)%nat ->
  term_qq names n d m = Some (text_term names (tqq ((n, d), m))).
Proof.
  intros Hn Hd Hm L. unfold term_qq. destruct (Z.eqb_spec n 0); [contradiction|]. rewrite <- (skipn_O names) at 1. rewrite single_false by (cbn; lia). cbn [obind negb andb]. f_equal. unfold text_term, tqq. cbn [fst snd]. rewrite Hm, andb_true_r. unfold text_body, segments. cbn [t_neg t_coef t_fac mkt]. destruct (facs_some wqq m Hm 0) as (f & r & EF). rewrite EF. cbn [map].
  destruct (Z.eqb_spec n 1) as [->|N1]; [destruct (Z.eqb_spec d 1) as [->|D1]|].
  - cbn [negb andb orb app Z.ltb]. reflexivity.
  - cbn [negb andb orb app]. rewrite num_abs by lia. change (1 <? 0) with false. change (0 <? 1) with true. cbv iota. cbn [app]. rewrite join_cons. cbn [map concat]. unfold text_coef. cbn [fst snd]. rewrite join_cons. rewrite <- !app_assoc. cbn [app]. assert (ND : num d = dec d) by (unfold num; destruct (Z.ltb_spec d 0); [lia|reflexivity]). rewrite ND. rewrite <- !app_assoc. reflexivity.
  - cbn [negb andb orb]. rewrite num_abs by lia. assert (ND : num d = dec d) by (unfold num; destruct (Z.ltb_spec d 0); [lia|reflexivity]). rewrite ND. cbn [app]. rewrite join_cons. cbn [map concat]. unfold text_coef. cbn [fst snd]. rewrite join_cons.
    destruct (Z.ltb_spec 0 n), (Z.ltb_spec n 0); try lia; cbn [app]; destruct (d =? 1); cbn [app]; rewrite <- ?app_assoc; cbn [app]; rewrite <- ?app_assoc; reflexivity.
Qed.
Lemma const_ok names n d m : n <> 0 -> 0 < d -> positive m = false -> const_text n d = text_term names (tqq ((n, d), m)).
Proof.
  intros Hn Hd Hm. unfold const_text, text_term, tqq. cbn [fst snd]. rewrite Hm, andb_false_r. unfold text_body, segments. cbn [t_neg t_coef t_fac mkt]. rewrite (facs_none wqq m Hm). cbn [map app join]. unfold text_coef. cbn [fst snd].
  assert (ND : num d = dec d) by (unfold num; destruct (Z.ltb_spec d 0); [lia|reflexivity]). rewrite ND. rewrite num_abs by exact Hn. destruct (Z.ltb_spec 0 n), (Z.ltb_spec n 0); try lia; cbn [app]; destruct (d =? 1); cbn [app]; rewrite ?app_nil_r; reflexivity.
Qed.
(** the tail: indices i .. 1 *)
Definition at_ (cf : list (Z * Z)) (mb : list (list Z)) (i : nat) : (Z * Z) * list Z := (nth i cf (0, 1), nth i mb []).
Lemma terms_qq_ok names cf mb i : (i < List.length cf)%nat -> (List.length cf <= List.length mb)%nat ->
  (forall j, (1 <= j <= i)%nat -> positive (nth j mb []) = true /\ (List.length (nth j mb []) <= List.length names)%nat /\ 0 < snd (nth j cf (0, 1)) /\ (fst (nth j cf (0, 1)) = 0 -> snd (nth j cf (0, 1)) = 1)) ->
  terms_qq names cf mb i = Some (concat (map (text_term names) (map tqq (filter nonzero (map (at_ cf mb) (rev (seq 1 i))))))).
Proof.
  induction i as [|i IH]; intros L1 L2 H; [reflexivity|]. cbn [terms_qq]. rewrite (nth_error_nth' cf (0, 1)) by lia. cbn [obind]. rewrite (nth_error_nth' mb []) by lia. cbn [obind]. rewrite IH by (try lia; intros j Hj; apply H; lia). rewrite seq_S, rev_app_distr. cbn [rev app map filter]. destruct (H (S i) ltac:(lia)) as (A & B & C & D). change (1 + i)%nat with (S i).
  assert (NZ : nonzero (at_ cf mb (S i)) = negb (fst (nth (S i) cf (0, 1)) =? 0)) by reflexivity. rewrite NZ. destruct (Z.eqb_spec (fst (nth (S i) cf (0, 1))) 0) as [E|E].
  - rewrite E, (D E). change (term_qq names 0 1 (nth (S i) mb [])) with (Some (@nil ascii)). reflexivity.
  - cbn [negb map concat]. rewrite term_qq_ok by assumption. cbn [obind]. unfold at_ at 2. destruct (nth (S i) cf (0, 1)). reflexivity.
Qed.
Definition dense_ok (nv : nat) (mb : list (list Z)) (ldm : list Z) (q : qpol) : Prop :=
  0 < q_lm q /\ List.length ldm = nv /\ positive ldm = true /\ q_cf q <> [] /\ (List.length (q_cf q) <= List.length mb)%nat /\
  (forall j, (j < List.length (q_cf q))%nat -> List.length (nth j mb []) = nv /\ (positive (nth j mb []) = true <-> j <> 0%nat) /\ 0 < snd (nth j (q_cf q) (0, 1)) /\ (fst (nth j (q_cf q) (0, 1)) = 0 -> snd (nth j (q_cf q) (0, 1)) = 1)).
Lemma combine_at cf : forall mb, (List.length cf <= List.length mb)%nat -> combine cf mb = map (at_ cf mb) (seq 0 (List.length cf)).
Proof.
  induction cf as [|c cf IH]; intros [|m mb] L; try (cbn in L; lia); [reflexivity|reflexivity|]. cbn [combine List.length seq map]. cbn in L. rewrite IH by lia. f_equal. rewrite <- seq_shift, map_map. reflexivity.
Qed.
Lemma filter_rev {A} (f : A -> bool) l : filter f (rev l) = rev (filter f l).
Proof. induction l as [|x l IH]; [reflexivity|]. cbn. rewrite filter_app, IH. cbn. destruct (f x); cbn; [reflexivity|apply app_nil_r]. Qed.
Lemma modpoly_ok names mb ldm q : dense_ok (List.length names) mb ldm q -> modpoly_text names mb ldm q = Some (text_poly names (map tqq (dense_terms (q_lm q) ldm (q_cf q) mb))).
Proof.
  intros (A & B & C & D & E & F). unfold modpoly_text. remember (q_cf q) as cf eqn:Hcf. destruct cf as [|c cf0]; [contradiction|]. assert (S0 : single names ldm false = Some (join "*" (map (text_fac names) (facs wqq 0 ldm)))) by (rewrite <- (skipn_O names) at 1; apply single_false; cbn; lia). rewrite S0. cbn [obind].
  rewrite terms_qq_ok; [|cbn; lia|exact E|].
  2:{ intros j Hj. destruct (F j ltac:(cbn in *; lia)) as (F1 & F2 & F3 & F4). split; [apply F2; lia|]. split; [lia|]. split; [exact F3|exact F4]. }
  cbn [obind]. f_equal. rewrite Hcf in *. assert (LC : List.length (q_cf q) = S (List.length cf0)) by (rewrite <- Hcf; reflexivity). unfold dense_terms. cbn [map text_poly].
  assert (T1 : (if q_lm q =? 1 then [] else num (q_lm q) ++ ["*"%char]) ++ join "*" (map (text_fac names) (facs wqq 0 ldm)) = text_first names (tqq (q_lm q, 1, ldm))).
  { unfold text_first, tqq. cbn [fst snd t_neg mkt]. rewrite C. destruct (Z.ltb_spec (q_lm q) 0); [lia|]. cbn [app]. unfold text_body, segments. cbn [t_coef t_fac mkt]. destruct (Z.eqb_spec (q_lm q) 1); cbn [andb Z.eqb Pos.eqb app]; [reflexivity|]. destruct (facs_some wqq ldm C 0) as (f & r & EF). rewrite EF. cbn [map]. rewrite !join_cons. cbn [map concat]. unfold text_coef. cbn [fst snd]. rewrite app_nil_r. unfold num. destruct (Z.ltb_spec (q_lm q) 0); [lia|]. rewrite Z.abs_eq by lia. rewrite <- app_assoc. reflexivity. }
  rewrite app_assoc, T1. f_equal. rewrite combine_at by exact E. rewrite <- filter_rev, <- map_rev, LC. cbn [seq rev]. rewrite map_app, filter_app, !map_app, concat_app. replace (S (List.length cf0) - 1)%nat with (List.length cf0) by lia. f_equal. cbn [map filter].
  destruct (F 0%nat ltac:(lia)) as (F1 & F2 & F3 & F4). assert (E0 : at_ (q_cf q) mb 0 = (c, nth 0 mb [])) by (rewrite <- Hcf; reflexivity). rewrite E0. unfold nonzero. cbn [fst snd]. rewrite <- Hcf in F3, F4. cbn [nth] in F3, F4. destruct (Z.eqb_spec (fst c) 0) as [Z0|Z0]; cbn [negb map concat].
  - rewrite Z0, (F4 Z0). reflexivity.
  - rewrite app_nil_r. destruct c as [n d]. cbn [fst snd] in *. apply const_ok; [exact Z0|exact F3|]. destruct (positive (nth 0 mb [])); [|reflexivity]. exfalso. apply (proj1 F2); reflexivity.
Qed.

Lemma entries_ok (pr : list Z -> qpol -> option str) (gs : list (list Z * qpol)) (txt : list Z * qpol -> str) : gs <> [] -> (forall g, In g gs -> pr (fst g) (snd g) = Some (txt g)) -> entries pr gs = Some (laid [" "%char] [nl] (map txt gs)).
Proof.
  induction gs as [|g gs IH]; intros NE H; [contradiction|]. destruct gs as [|g' gs].
  - cbn [entries map laid]. rewrite (H g (or_introl eq_refl)). reflexivity.
  - change (entries pr (g :: g' :: gs)) with (let? t := pr (fst g) (snd g) in let? u := entries pr (g' :: gs) in Some (t ++ s_ ", " ++ nl :: u)). rewrite (H g (or_introl eq_refl)). cbn [obind]. rewrite IH; [|discriminate|intros x Hx; apply H; right; exact Hx]. reflexivity.
Qed.
Lemma wqq_len (es : list Z) : (forall e, In e es -> e < 2 ^ 31) -> forall e, In e es -> 0 < e -> match wqq e with None => True | Some d => (List.length d <= 10)%nat end.
Proof. intros H e He P. unfold wqq. destruct (e =? 1); [exact I|]. specialize (H e He). apply dec_ok; [lia|lia|]. pose proof pow10_10. lia. Qed.
Definition big : nat := Z.to_nat 10000.
Lemma big_eq : Z.of_nat big = 10000. Proof. reflexivity. Qed.
#[local] Opaque big.
(** at most 10000 digits *)
Definition digits (n : Z) : Prop := Z.abs n < 10 ^ Z.of_nat big.
Lemma tqq_good names x : names_short names -> (List.length names <= 500)%nat -> List.length (snd x) = List.length names -> (forall e, In e (snd x) -> 0 <= e < 2 ^ 31) -> 0 < snd (fst x) ->
  digits (fst (fst x)) -> digits (snd (fst x)) -> good names (tqq x) /\ denotes (List.length names) (tqq x) (fst x) (snd x).
Proof.
  intros HS HL L EB D0 DN DD. destruct x as [[n d] m]. cbn [fst snd] in *. destruct (dec_ok (Z.abs n) ltac:(lia)) as (N1 & N2 & N3). destruct (dec_ok d ltac:(lia)) as (M1 & M2 & M3).
  assert (CO : coef_ok (if (n =? 1) && (d =? 1) && positive m then None else Some (dec (Z.abs n), if d =? 1 then None else Some (dec d)))).
  { intros a b E. destruct ((n =? 1) && (d =? 1) && positive m); [discriminate|]. injection E as <- <-. split; [exact N1|]. intros d' E. destruct (d =? 1); [discriminate|]. injection E as <-. exact M1. }
  split; [split; [|split]|split; [|split]].
  - apply mkt_ok; [apply wqq_ok|exact CO|exact L|]. cbn [fst snd]. destruct (n =? 1); [|left; discriminate]. destruct (d =? 1); [|left; discriminate]. cbn [andb]. destruct (positive m) eqn:PM; [right; apply positive_ex; exact PM|left; discriminate].
  - apply mkt_fit; [apply wqq_ok|]. intros e He. cbn [snd] in He. apply EB. exact He.
  - unfold short, text_term. cbn [List.length]. pose proof (stars_length names wqq m 10 HS (wqq_len m (fun e He => proj2 (EB e He))) 0) as SL. rewrite L in SL.
    assert (BL : (List.length (text_body names (tqq (n, d, m))) <= 2 * big + 1 + List.length (stars names (facs wqq 0 m)))%nat).
    { unfold tqq. cbn [fst snd]. destruct ((n =? 1) && (d =? 1) && positive m).
      - unfold text_body, segments. cbn [t_coef t_fac mkt app]. unfold stars. destruct (map (text_fac names) (facs wqq 0 m)) as [|t l]; [cbn; lia|]. rewrite join_cons. cbn [map concat]. rewrite !app_length. cbn [List.length]. lia.
      - rewrite body_some, app_length. unfold text_coef. cbn [fst snd]. rewrite app_length. pose proof big_eq as BG. specialize (N3 big ltac:(lia) DN). assert (DD' : d < 10 ^ Z.of_nat big) by (unfold digits in DD; rewrite Z.abs_eq in DD by lia; exact DD). specialize (M3 big ltac:(lia) DD'). destruct (d =? 1); cbn [List.length]; lia. }
    pose proof big_eq. lia.
  - unfold t_num, t_sign, tqq. cbn [fst snd t_neg t_coef mkt]. destruct (Z.eqb_spec n 1) as [->|]; cbn [andb]; [destruct (Z.eqb_spec d 1); cbn [andb]; [destruct (positive m)|]|]; rewrite ?N2; destruct (Z.ltb_spec 1 0); try destruct (Z.ltb_spec n 0); lia.
  - unfold t_den, tqq. cbn [fst snd t_neg t_coef mkt]. destruct (Z.eqb_spec n 1) as [->|]; cbn [andb]; destruct (Z.eqb_spec d 1) as [->|]; cbn [andb]; try destruct (positive m); congruence.
  - cbn [fst snd]. rewrite <- L. apply mkt_exps; [apply wqq_ok|]. intros e He. apply EB. exact He.
Qed.
Lemma header_qq_ok pg tr elim names ld : (elim < List.length names)%nat -> (forall n, In n names -> name n) -> exists h, header_qq pg tr elim names ld = Some h /\ comments h.
Proof.
  intros L HN. unfold header_qq. destruct (Nat.leb_spec (List.length names) elim); [lia|]. eexists. split; [reflexivity|].
  apply comments_app; [destruct (pg =? 1); [cline|]; destruct (1 <? pg); [destruct tr; cline|apply comments_nil]|]. apply comments_app; [cline|]. apply comments_app; [cline|]. rewrite app_assoc. apply comments_app; [apply order_comment|apply comments_app; [cline|apply comments_app; [apply length_comment|cline]]].
  - intros E. apply (f_equal (@List.length _)) in E. rewrite skipn_length in E. cbn in E. lia.
  - intros n Hn. apply HN. rewrite <- (firstn_skipn elim names). apply in_or_app. right. exact Hn.
Qed.
