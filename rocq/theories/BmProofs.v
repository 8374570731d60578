(** Proofs about Berlekamp-Massey: the invariants of the Euclidean algorithm, and minimality of the recurrence found. *)
From Coq Require Import ZArith Arith List Bool Lia Znumtheory Setoid Morphisms Ring.
From Verif Require Import LinSpec FpSpec ModInvModel NmodModel FpProofs BmModel.
Import ListNotations.
Open Scope Z_scope.

Definition hf (n : nat) : nat := Nat.div2 (S n).
Lemma hf_spec n : (2 * hf n <= n + 1)%nat /\ (n <= 2 * hf n)%nat.
Proof. unfold hf. pose proof (Nat.div2_odd (S n)) as H. destruct (Nat.odd (S n)); cbn [Nat.b2n] in H; lia. Qed.

Section B.
Variable p : Z.
Hypothesis Hp : prime p.
Notation "a == b" := (peq p a b) (at level 70).
Notation "a =p b" := (eqp p a b) (at level 70).
Add Ring fp_ring3 : (pring p) (setoid (peq_eq p) (prext p)).

Definition brel (n : nat) (sq : list Z) (s : quad) : Prop := exists U0 U1 e,
  padd (pmul U0 (pX n)) (pmul (qV0 s) sq) == qR0 s /\ padd (pmul U1 (pX n)) (pmul (qV1 s) sq) == qR1 s /\
  psub (pmul U0 (qV1 s)) (pmul U1 (qV0 s)) == [e] /\ (e = 1 \/ e = -1).
Record LI (n : nat) (sq : list Z) (s : quad) (d : nat) : Prop := {
  li_R0 : nf p (qR0 s); li_R1 : nf p (qR1 s); li_V0 : nf p (qV0 s); li_V1 : nf p (qV1 s);
  li_rel : brel n sq s;
  li_d0 : hdeg p (qR0 s) d; li_d1 : dlt p (qR1 s) d;
  li_v1 : hdeg p (qV1 s) (n - d); li_v0 : dlt p (qV0 s) (n - d);
  li_n : (d <= n)%nat; li_2 : (n <= 2 * d)%nat }.
Lemma opp_const e : popp [e] == [- e]. Proof. reflexivity. Qed.
Lemma euclid_step_ok n sq s d : LI n sq s d -> Z.of_nat n <= 2 * ndeg (qR1 s) ->
  exists s' d', euclid_step p s = Some s' /\ LI n sq s' d' /\ (length (qR1 s') < length (qR1 s))%nat /\ qR0 s' = qR1 s.
Proof.
  intros [H1 H2 H3 H4 (U0 & U1 & e & E0 & E1 & ED & Ee) D0 D1 V1 V0 Ln L2] G. unfold ndeg in G. destruct (length (qR1 s)) as [|d1] eqn:L1; [lia|]. pose proof (nf_hdeg p Hp (qR1 s) d1 H2 L1) as Hd1.
  pose proof (hdeg_dlt_lt p _ _ _ Hd1 D1) as Lt. destruct (ndivrem_ok p Hp (qR0 s) (qR1 s) d1 H1 H2 Hd1) as (q & r & E & Eq & Dr & Nq & Nr).
  unfold euclid_step. rewrite E. unfold obind. cbn [fst snd]. eexists; exists d1; split; [reflexivity|]. pose proof (quot_deg p Hp (qR0 s) (qR1 s) q r d d1 D0 Hd1 ltac:(lia) Eq Dr) as Dq.
  assert (EV : nsub p (qV0 s) (nmul p q (qV1 s)) == psub (qV0 s) (pmul q (qV1 s))) by (rewrite nsub_peq, nmul_peq by exact Hp; reflexivity).
  split; [|split; [cbn [qR1]; apply (nf_dlt p Hp r d1 Nr) in Dr; lia|reflexivity]]. constructor; cbn [qR0 qR1 qV0 qV1]; auto; try lia.
  - apply nf_norm. exact Hp.
  - exists U1, (psub U0 (pmul q U1)), (- e). cbn [qR0 qR1 qV0 qV1]. split; [exact E1|]. split; [|split].
    + rewrite EV. assert (Er : r == psub (qR0 s) (pmul q (qR1 s))) by (rewrite Eq; ring). rewrite Er, <- E0, <- E1. ring.
    + rewrite EV, <- opp_const, <- ED. ring.
    + destruct Ee; subst e; auto.
  - rewrite EV. replace (n - d1)%nat with ((d - d1) + (n - d))%nat by lia. apply hdeg_sub_r; [apply hdeg_mul; assumption|]. apply (dlt_le p _ (n - d)); [lia|exact V0].
  - apply (dlt_le p _ (S (n - d))); [lia|]. apply hdeg_dlt. exact V1.
Qed.
Lemma euclid_loop_ok n sq : forall fuel s d, LI n sq s d -> (length (qR1 s) < fuel)%nat ->
  exists s' d', euclid_loop fuel p n s = Some s' /\ LI n sq s' d' /\ 2 * ndeg (qR1 s') < Z.of_nat n.
Proof.
  induction fuel as [|fuel IH]; intros s d H F; [lia|]. cbn [euclid_loop]. destruct (Z.leb_spec (Z.of_nat n) (2 * ndeg (qR1 s))) as [G|G].
  - destruct (euclid_step_ok n sq s d H G) as (s1 & d1 & E & H1 & L & _). rewrite E. unfold obind. apply (IH s1 d1 H1). lia.
  - exists s, d. split; [reflexivity|split; [exact H|exact G]].
Qed.

Record HI (a b : list Z) (da : nat) (h : hg) (dA : nat) : Prop := {
  hi_11 : nf p (h11 h); hi_12 : nf p (h12 h); hi_21 : nf p (h21 h); hi_22 : nf p (h22 h); hi_A : nf p (hA h); hi_B : nf p (hB h);
  hi_a : a == padd (pmul (h11 h) (hA h)) (pmul (h12 h) (hB h)); hi_b : b == padd (pmul (h21 h) (hA h)) (pmul (h22 h) (hB h));
  hi_det : psub (pmul (h11 h) (h22 h)) (pmul (h12 h) (h21 h)) == [hsg h]; hi_sg : hsg h = 1 \/ hsg h = -1;
  hi_dA : hdeg p (hA h) dA; hi_dB : dlt p (hB h) dA; hi_le : (dA <= da)%nat; hi_2 : (da <= 2 * dA)%nat;
  hi_d11 : hdeg p (h11 h) (da - dA); hi_d12 : dlt p (h12 h) (da - dA);
  hi_d21 : dlt p (h21 h) (S (da - dA)); hi_d22 : dlt p (h22 h) (S (da - dA)) }.
Lemma hgcd_loop_ok a b da : forall fuel h dA, HI a b da h dA -> (length (hB h) < fuel)%nat ->
  exists h' dA', hgcd_loop fuel p (Z.of_nat da) h = Some h' /\ HI a b da h' dA' /\ 2 * ndeg (hB h') < Z.of_nat da.
Proof.
  induction fuel as [|fuel IH]; intros h dA H F; [lia|]. cbn [hgcd_loop]. destruct (Z.leb_spec (Z.of_nat da) (2 * ndeg (hB h))) as [G|G]; [|exists h, dA; split; [reflexivity|split; [exact H|exact G]]].
  destruct H as [N11 N12 N21 N22 NA NB Ea Eb ED Es DA DB Le L2 D11 D12 D21 D22]. unfold ndeg in G. destruct (length (hB h)) as [|dB] eqn:LB; [lia|]. pose proof (nf_hdeg p Hp (hB h) dB NB LB) as HB. pose proof (hdeg_dlt_lt p _ _ _ HB DB) as Lt.
  destruct (ndivrem_ok p Hp (hA h) (hB h) dB NA NB HB) as (q & r & E & Eq & Dr & Nq & Nr). rewrite E. unfold obind. cbn [fst snd]. pose proof (quot_deg p Hp (hA h) (hB h) q r dA dB DA HB ltac:(lia) Eq Dr) as Dq.
  apply (IH _ dB).
  - assert (E1 : nadd p (nmul p (h11 h) q) (h12 h) == padd (pmul (h11 h) q) (h12 h)) by (rewrite nadd_peq, nmul_peq by exact Hp; reflexivity).
    assert (E2 : nadd p (nmul p (h21 h) q) (h22 h) == padd (pmul (h21 h) q) (h22 h)) by (rewrite nadd_peq, nmul_peq by exact Hp; reflexivity).
    constructor; cbn [h11 h12 h21 h22 hA hB hsg]; auto; try lia; try (apply nf_norm; exact Hp).
    + rewrite E1, Ea. rewrite Eq at 1. ring.
    + rewrite E2, Eb. rewrite Eq at 1. ring.
    + rewrite E1, E2, <- opp_const, <- ED. ring.
    + rewrite E1. replace (da - dB)%nat with ((da - dA) + (dA - dB))%nat by lia. apply hdeg_add; [apply hdeg_mul; assumption|apply (dlt_le p _ (da - dA)); [lia|exact D12]].
    + apply (dlt_le p _ (S (da - dA))); [lia|apply hdeg_dlt; exact D11].
    + rewrite E2. apply dlt_add; [|apply (dlt_le p _ (S (da - dA))); [lia|exact D22]]. replace (S (da - dB))%nat with ((da - dA) + S (dA - dB))%nat by lia. apply dlt_mul; [exact D21|apply hdeg_dlt; exact Dq].
    + apply (dlt_le p _ (S (da - dA))); [lia|exact D21].
  - cbn [hB]. apply (nf_dlt p Hp r dB Nr) in Dr. lia.
Qed.
Lemma strip_skipn k a : nf p a -> nf p (skipn k a).
Proof.
  revert a. induction k as [|k IH]; intros a H; [exact H|]. destruct a as [|x a]; [exact H|]. cbn [skipn]. apply IH. unfold nf, norm in *. cbn [map strip] in H. destruct (strip (map (fun x => x mod p) a)) as [|y r] eqn:E.
  - destruct (x mod p =? 0); [discriminate|]. injection H as _ <-. reflexivity.
  - injection H as _ H. exact H.
Qed.
Lemma skipn_split k a : a == padd (pmul (pX k) (skipn k a)) (firstn k a).
Proof.
  rewrite <- pshift_pmul. apply peq_ext. intros i. rewrite pc_padd, pc_pshift. unfold pc. rewrite <- (firstn_skipn k a) at 1. destruct (Nat.ltb_spec i k) as [L|L].
  - destruct (Nat.lt_ge_cases i (length a)) as [M|M].
    + rewrite app_nth1 by (rewrite firstn_length; lia). lia.
    + rewrite !nth_overflow; [reflexivity|rewrite firstn_length; lia|rewrite app_length, firstn_length, skipn_length; lia].
  - rewrite (nth_overflow (firstn k a)) by (rewrite firstn_length; lia). destruct (Nat.lt_ge_cases k (length a)) as [M|M].
    + rewrite app_nth2 by (rewrite firstn_length; lia). rewrite firstn_length, Nat.min_l by lia. lia.
    + rewrite skipn_all2 by lia. rewrite app_nil_r, firstn_all2 by lia. rewrite nth_overflow by lia. destruct (i - k)%nat; reflexivity.
Qed.
Lemma firstn_dlt k a : dlt p (firstn k a) k.
Proof. apply (dlt_le p _ (length (firstn k a))); [rewrite firstn_length; lia|apply dlt_len]. Qed.
Lemma sub_sgn_ok sg x y z w : sg = 1 \/ sg = -1 -> sub_sgn p sg (nmul p x y) (nmul p z w) == pmul [sg] (psub (pmul x y) (pmul z w)) /\ nf p (sub_sgn p sg (nmul p x y) (nmul p z w)).
Proof.
  intros [-> | ->]; unfold sub_sgn; cbn [Z.ltb Z.compare]; (split; [|apply nf_norm; exact Hp]); rewrite nsub_peq, !nmul_peq by exact Hp; [ring|]. assert (E : [-1] == popp [1]) by reflexivity. rewrite E. ring.
Qed.
Lemma hgcd_branch_ok n sq s d : LI n sq s d -> (d < n)%nat -> exists s' d', hgcd_branch p (n - d) s = Some s' /\ LI n sq s' d' /\ 2 * ndeg (qR1 s') < Z.of_nat n.
Proof.
  intros [H1 H2 H3 H4 (U0 & U1 & e & E0 & E1 & ED & Ee) D0 D1 V1 V0 Ln L2] Ld. set (k := (n - d)%nat) in *. set (a := skipn k (qR0 s)). set (b := skipn k (qR1 s)). set (lo0 := firstn k (qR0 s)). set (lo1 := firstn k (qR1 s)).
  assert (S0 : qR0 s == padd (pmul (pX k) a) lo0) by apply skipn_split. assert (S1 : qR1 s == padd (pmul (pX k) b) lo1) by apply skipn_split. assert (F0 : dlt p lo0 k) by apply firstn_dlt. assert (F1 : dlt p lo1 k) by apply firstn_dlt.
  assert (Na : nf p a) by (apply strip_skipn; exact H1). assert (Nb : nf p b) by (apply strip_skipn; exact H2). pose proof (nf_len p Hp (qR0 s) d H1 D0) as L0. set (da := (d - k)%nat).
  assert (Da : hdeg p a da) by (apply (nf_hdeg p Hp); [exact Na|unfold a; rewrite skipn_length; unfold da, k in *; lia]). assert (Db : dlt p b da) by (apply (nf_dlt p Hp); [exact Nb|]; apply (nf_dlt p Hp (qR1 s) d H2) in D1; unfold b; rewrite skipn_length; unfold da; lia).
  assert (Hi : HI a b da {| h11 := [1]; h12 := []; h21 := []; h22 := [1]; hA := a; hB := b; hsg := 1 |} da).
  { assert (O : hdeg p [1] 0) by (apply hdeg_const, one_ne; exact Hp). assert (N1 : nf p [1]) by (unfold nf, norm; cbn [map strip]; rewrite Z.mod_small by (pose proof (p2 p Hp); lia); reflexivity).
    constructor; cbn [h11 h12 h21 h22 hA hB hsg]; auto; try lia; try apply nf_nil; try ring; rewrite ?Nat.sub_diag; auto using dlt_nil. apply hdeg_dlt. exact O. }
  destruct (hgcd_loop_ok a b da (S (length b)) _ da Hi (Nat.lt_succ_diag_r _)) as (h & dA & E & [N11 N12 N21 N22 NA NB Ea Eb EDh Es DA DB Le M2 D11 D12 D21 D22] & HB).
  assert (Eda : ndeg a = Z.of_nat da) by (unfold ndeg; rewrite (nf_len p Hp a da Na Da); lia). unfold hgcd_branch. fold a b. unfold nmod_hgcd. rewrite Eda, E. unfold obind.
  destruct (sub_sgn_ok (hsg h) (h22 h) (qV0 s) (h12 h) (qV1 s) Es) as [X1 Y1]. destruct (sub_sgn_ok (hsg h) (h11 h) (qV1 s) (h21 h) (qV0 s) Es) as [X2 Y2].
  destruct (sub_sgn_ok (hsg h) (h22 h) (qR0 s) (h12 h) (qR1 s) Es) as [X3 Y3]. destruct (sub_sgn_ok (hsg h) (h11 h) (qR1 s) (h21 h) (qR0 s) Es) as [X4 Y4].
  set (sg := hsg h) in *. assert (Sq : pmul [sg] [sg] == [1]) by (destruct Es as [Es|Es]; rewrite Es; reflexivity). assert (Su : hdeg p [sg] 0).
  { apply hdeg_const. destruct Es as [Es|Es]; rewrite Es; [apply one_ne; exact Hp|]. intros K. apply (one_ne p Hp). rewrite <- (Z.opp_involutive 1), K. reflexivity. }
  assert (R0' : pmul [sg] (psub (pmul (h22 h) (qR0 s)) (pmul (h12 h) (qR1 s))) == padd (pmul (pX k) (hA h)) (pmul [sg] (psub (pmul (h22 h) lo0) (pmul (h12 h) lo1)))).
  { rewrite S0, S1. transitivity (padd (pmul (pmul [sg] (pX k)) (psub (pmul (h22 h) a) (pmul (h12 h) b))) (pmul [sg] (psub (pmul (h22 h) lo0) (pmul (h12 h) lo1)))); [ring|].
    assert (K : psub (pmul (h22 h) a) (pmul (h12 h) b) == pmul [sg] (hA h)) by (rewrite <- EDh, Ea, Eb; ring). rewrite K. transitivity (padd (pmul (pmul [sg] [sg]) (pmul (pX k) (hA h))) (pmul [sg] (psub (pmul (h22 h) lo0) (pmul (h12 h) lo1)))); [ring|]. rewrite Sq. ring. }
  assert (R1' : pmul [sg] (psub (pmul (h11 h) (qR1 s)) (pmul (h21 h) (qR0 s))) == padd (pmul (pX k) (hB h)) (pmul [sg] (psub (pmul (h11 h) lo1) (pmul (h21 h) lo0)))).
  { rewrite S0, S1. transitivity (padd (pmul (pmul [sg] (pX k)) (psub (pmul (h11 h) b) (pmul (h21 h) a))) (pmul [sg] (psub (pmul (h11 h) lo1) (pmul (h21 h) lo0)))); [ring|].
    assert (K : psub (pmul (h11 h) b) (pmul (h21 h) a) == pmul [sg] (hB h)) by (rewrite <- EDh, Ea, Eb; ring). rewrite K. transitivity (padd (pmul (pmul [sg] [sg]) (pmul (pX k) (hB h))) (pmul [sg] (psub (pmul (h11 h) lo1) (pmul (h21 h) lo0)))); [ring|]. rewrite Sq. ring. }
  assert (Dk : forall x y, dlt p x (S (da - dA)) -> dlt p y (S (da - dA)) -> forall u v, dlt p u k -> dlt p v k -> dlt p (pmul [sg] (psub (pmul x u) (pmul y v))) (da - dA + k)).
  { intros x y Hx Hy u v Hu Hv. apply (dlt_mul p _ _ 0); [apply hdeg_dlt; exact Su|]. apply dlt_sub; apply dlt_mul; assumption. }
  assert (D12' : dlt p (h12 h) (S (da - dA))) by (apply (dlt_le p _ (da - dA)); [lia|exact D12]). assert (D11' := hdeg_dlt p _ _ D11).
  pose proof (Dk _ _ D22 D12' _ _ F0 F1) as T0. pose proof (Dk _ _ D11' D21 _ _ F1 F0) as T1. rewrite R0' in X3. rewrite R1' in X4. pose proof (hf_spec n) as [hn1 hn2].
  eexists; exists (k + dA)%nat; split; [reflexivity|]. cbn [qR1]. split.
  - constructor; cbn [qR0 qR1 qV0 qV1]; auto; try (unfold da, k in *; lia).
    + exists (pmul [sg] (psub (pmul (h22 h) U0) (pmul (h12 h) U1))), (pmul [sg] (psub (pmul (h11 h) U1) (pmul (h21 h) U0))), (sg * e). cbn [qR0 qR1 qV0 qV1]. split; [|split; [|split]].
      * rewrite X1, X3, <- R0', <- E0, <- E1. ring.
      * rewrite X2, X4, <- R1', <- E0, <- E1. ring.
      * rewrite X1, X2. transitivity (pmul (pmul (pmul [sg] [sg]) (psub (pmul (h11 h) (h22 h)) (pmul (h12 h) (h21 h)))) (psub (pmul U0 (qV1 s)) (pmul U1 (qV0 s)))); [ring|]. rewrite Sq, EDh, ED. fold sg. transitivity (pmul [sg] [e]); [ring|]. apply peq_ext. intros i. rewrite pc_pmul_cons. destruct i as [|i]; cbn [pmul]; rewrite ?pc_cons0, ?pc_consS, ?pc_nil; lia.
      * destruct Es as [Es|Es], Ee as [Ee|Ee]; rewrite Es, Ee; auto.
    + rewrite X3. rewrite <- pshift_pmul. apply hdeg_add; [apply hdeg_shift; assumption|]. apply (dlt_le p _ (da - dA + k)); [lia|exact T0].
    + rewrite X4. rewrite <- pshift_pmul. apply dlt_add; [apply dlt_shift; exact DB|]. apply (dlt_le p _ (da - dA + k)); [lia|exact T1].
    + rewrite X2. replace (n - (k + dA))%nat with (0 + ((da - dA) + (n - d)))%nat by (unfold da, k in *; lia). apply hdeg_mul; [exact Hp|exact Su|]. apply hdeg_sub; [apply hdeg_mul; assumption|]. apply dlt_mul; assumption.
    + rewrite X1. replace (n - (k + dA))%nat with (0 + ((da - dA) + (n - d)))%nat by (unfold da, k in *; lia). apply dlt_mul; [apply hdeg_dlt; exact Su|]. apply dlt_sub; [apply dlt_mul; assumption|]. apply dlt_mul_l; [exact D12|apply hdeg_dlt; exact V1].
  - assert (T : dlt p (sub_sgn p sg (nmul p (h11 h) (qR1 s)) (nmul p (h21 h) (qR0 s))) (hf n)).
    { rewrite X4. apply dlt_add; [|apply (dlt_le p _ (da - dA + k)); [unfold da, k in *; lia|exact T1]]. rewrite <- pshift_pmul. pose proof (dlt_len p (hB h)) as T2. apply (dlt_shift p k) in T2. apply (dlt_le p _ (k + length (hB h))); [|exact T2]. unfold ndeg in HB. unfold da, k in *. lia. }
    apply (nf_dlt p Hp _ _ Y4) in T. unfold ndeg. fold sg. lia.
Qed.
Definition bquad (B : bms) : quad := {| qR0 := bR0 B; qR1 := bR1 B; qV0 := bV0 B; qV1 := bV1 B |}.
Definition binv (B : bms) : Prop := (bnp B <= length (bpts B))%nat /\ exists d, LI (bnp B) (rev (firstn (bnp B) (bpts B))) (bquad B) d /\ 2 * ndeg (bR1 B) < Z.of_nat (bnp B).
Lemma nf_1 : nf p [1].
Proof. unfold nf, norm; cbn [map strip]; rewrite Z.mod_small by (pose proof (p2 p Hp); lia); reflexivity. Qed.
Lemma start_inv : binv bm_start.
Proof.
  split; [cbn; lia|]. exists O. assert (O1 : hdeg p [1] 0) by (apply hdeg_const, one_ne; exact Hp). split; [|reflexivity]. constructor; cbn [bquad bm_start qR0 qR1 qV0 qV1 bR0 bR1 bV0 bV1 bnp bpts Nat.sub]; auto using nf_1, nf_nil, dlt_nil; try lia.
  exists [1], [], 1. cbn [bquad bm_start qR0 qR1 qV0 qV1 bR0 bR1 bV0 bV1 firstn rev]. split; [change (pX 0) with [1]; ring|]. split; [ring|]. split; [ring|auto].
Qed.
Lemma add_inv B a : binv B -> binv (bm_add_points B a).
Proof.
  intros [H (d & K & L)]. split; [cbn [bm_add_points bnp bpts]; rewrite app_length; lia|]. exists d. cbn [bm_add_points bnp bpts bR1]. rewrite firstn_app. replace (bnp B - length (bpts B))%nat with O by lia. cbn [firstn]. rewrite app_nil_r. split; [exact K|exact L].
Qed.
Lemma app_peq a b : a ++ b == padd a (pmul (pX (length a)) b).
Proof.
  rewrite <- pshift_pmul. apply peq_ext. intros i. rewrite pc_padd, pc_pshift. unfold pc. destruct (Nat.ltb_spec i (length a)) as [L|L]; [rewrite app_nth1 by exact L; lia|]. rewrite app_nth2 by exact L. rewrite (nth_overflow a) by exact L. lia.
Qed.
Lemma bm_reduce_ok B : binv B -> exists B', bm_reduce p B = Some B' /\ bpts B' = bpts B /\ bnp B' = length (bpts B) /\ binv B'.
Proof.
  intros [Hn (d & [H1 H2 H3 H4 (U0 & U1 & e & E0 & E1 & ED & Ee) D0 D1 V1 V0 Ln L2] & HR)]. cbn [bquad qR0 qR1 qV0 qV1] in *. unfold bm_reduce. set (n := length (bpts B)) in *. set (n0 := bnp B) in *. replace (n <? n0)%nat with false by (symmetry; apply Nat.ltb_ge; exact Hn).
  set (q := (n - n0)%nat). set (rt := norm p (rev (skipn n0 (bpts B)))). set (s0 := {| qR0 := nadd p (nshift p q (bR0 B)) (nmul p (bV0 B) rt); qR1 := nadd p (nshift p q (bR1 B)) (nmul p (bV1 B) rt); qV0 := bV0 B; qV1 := bV1 B |}).
  assert (Ert : rt == rev (skipn n0 (bpts B))) by (apply norm_peq; exact Hp). assert (Drt : dlt p rt q).
  { rewrite Ert. apply (dlt_le p _ (length (rev (skipn n0 (bpts B))))); [rewrite rev_length, skipn_length; unfold q, n; lia|apply dlt_len]. }
  assert (Esq : rev (bpts B) == padd rt (pmul (pX q) (rev (firstn n0 (bpts B))))).
  { rewrite <- (firstn_skipn n0 (bpts B)) at 1. rewrite rev_app_distr, app_peq. rewrite rev_length, skipn_length. fold n q. rewrite Ert. reflexivity. }
  assert (EX : pX n == pmul (pX q) (pX n0)) by (rewrite <- pX_add; replace (q + n0)%nat with n by (unfold q; lia); reflexivity).
  assert (X0 : qR0 s0 == padd (pmul (pX q) (bR0 B)) (pmul (bV0 B) rt)) by (cbn [s0 qR0]; rewrite nadd_peq, nshift_peq, nmul_peq, pshift_pmul by exact Hp; reflexivity).
  assert (X1 : qR1 s0 == padd (pmul (pX q) (bR1 B)) (pmul (bV1 B) rt)) by (cbn [s0 qR1]; rewrite nadd_peq, nshift_peq, nmul_peq, pshift_pmul by exact Hp; reflexivity).
  assert (I0 : LI n (rev (bpts B)) s0 (d + q)).
  { assert (Nn : (n - (d + q) = n0 - d)%nat) by (unfold q; lia). constructor; try (apply nf_norm; exact Hp); auto; rewrite ?Nn; auto; try (unfold q; lia).
    - exists U0, U1, e. split; [|split; [|split; [exact ED|exact Ee]]].
      + rewrite X0, Esq, EX, <- E0. cbn [s0 qV0]. ring.
      + rewrite X1, Esq, EX, <- E1. cbn [s0 qV1]. ring.
    - rewrite X0, <- pshift_pmul. rewrite (Nat.add_comm d). apply hdeg_add; [apply hdeg_shift; assumption|]. apply (dlt_le p _ ((n0 - d) + q)); [lia|]. apply dlt_mul; [apply (dlt_le p _ (n0 - d)); [lia|exact V0]|exact Drt].
    - rewrite X1, <- pshift_pmul. rewrite (Nat.add_comm d). apply dlt_add; [apply dlt_shift; exact D1|]. apply (dlt_le p _ ((n0 - d) + q)); [lia|]. apply dlt_mul; [apply hdeg_dlt; exact V1|exact Drt]. }
  assert (Fin : forall s' d', LI n (rev (bpts B)) s' d' -> 2 * ndeg (qR1 s') < Z.of_nat n -> exists B', Some (bm_with B n s') = Some B' /\ bpts B' = bpts B /\ bnp B' = n /\ binv B').
  { intros s' d' I L. eexists. split; [reflexivity|]. split; [reflexivity|]. split; [reflexivity|]. split; [cbn [bm_with bnp bpts]; unfold n; lia|]. exists d'. cbn [bm_with bnp bpts bR1]. unfold n at 2. rewrite firstn_all. split; [destruct s'; exact I|exact L]. }
  destruct (Z.ltb_spec (2 * ndeg (qR1 s0)) (Z.of_nat n)) as [G|G]; [exact (Fin s0 (d + q)%nat I0 G)|].
  destruct (euclid_step_ok n _ s0 (d + q) I0 G) as (s1 & d1 & Es & I1 & Ls & Eq). rewrite Es. unfold obind at 1.
  assert (Ld : (d1 < d + q)%nat). { pose proof (li_d0 _ _ _ _ I1) as T. rewrite Eq in T. exact (hdeg_dlt_lt p _ _ _ T (li_d1 _ _ _ _ I0)). }
  assert (El : ndeg (qR0 s1) = Z.of_nat d1) by (unfold ndeg; rewrite (nf_len p Hp _ _ (li_R0 _ _ _ _ I1) (li_d0 _ _ _ _ I1)); lia). rewrite El. pose proof (li_n _ _ _ _ I1) as Ln1. pose proof (li_n _ _ _ _ I0) as Ln0. replace (Z.of_nat n - Z.of_nat d1 <? 0) with false by (symmetry; apply Z.ltb_ge; lia).
  destruct (_ <? 10).
  - destruct (euclid_loop_ok n _ (S (S (length (qR1 s1)))) s1 d1 I1 ltac:(lia)) as (s2 & d2 & E2 & I2 & R2). rewrite E2. unfold obind. exact (Fin s2 d2 I2 R2).
  - replace (Z.to_nat (Z.of_nat n - Z.of_nat d1)) with (n - d1)%nat by lia. destruct (hgcd_branch_ok n _ s1 d1 I1 ltac:(lia)) as (s2 & d2 & E2 & I2 & R2). rewrite E2. unfold obind. exact (Fin s2 d2 I2 R2).
Qed.

(** * Sequences *)
Lemma apply_ext q s t : (forall i, s i =p t i) -> forall i, apply_at q s i =p apply_at q t i.
Proof. intros H. induction q as [|c q IH]; intros i; cbn [apply_at]; [reflexivity|]. rewrite (H i), (IH (S i)). reflexivity. Qed.
Lemma apply_zero q s : q == [] -> forall i, apply_at q s i =p 0.
Proof.
  induction q as [|c q IH]; intros H i; cbn [apply_at]; [reflexivity|]. pose proof (H O) as H0. rewrite pc_cons0, pc_nil in H0. rewrite H0. rewrite IH; [reflexivity|]. intros j. pose proof (H (S j)) as Hj. rewrite pc_consS, pc_nil in Hj. rewrite pc_nil. exact Hj.
Qed.
Lemma apply_peq q : forall r s i, q == r -> apply_at q s i =p apply_at r s i.
Proof.
  induction q as [|c q IH]; intros r s i H; [symmetry; apply apply_zero; symmetry; exact H|]. destruct r as [|d r]; [apply apply_zero; exact H|]. cbn [apply_at]. pose proof (H O) as H0. rewrite !pc_cons0 in H0. rewrite H0. rewrite (IH r); [reflexivity|]. intros j. exact (H (S j)).
Qed.
Lemma apply_padd a : forall b s i, apply_at (padd a b) s i = apply_at a s i + apply_at b s i.
Proof. induction a as [|x a IH]; intros [|y b] s i; cbn [padd apply_at]; try lia. rewrite IH. lia. Qed.
Lemma apply_pscal c a s : forall i, apply_at (pscal c a) s i = c * apply_at a s i.
Proof. induction a as [|x a IH]; intros i; cbn [pscal map apply_at]; [lia|]. fold (pscal c a). rewrite IH. lia. Qed.
Lemma apply_pmul a b s : forall i, apply_at (pmul a b) s i = apply_at a (apply_at b s) i.
Proof. induction a as [|x a IH]; intros i; cbn [pmul apply_at]; [reflexivity|]. rewrite apply_padd, apply_pscal. cbn [apply_at]. rewrite IH. lia. Qed.
Lemma apply_top q s : forall w i, dlt p q (S w) -> (forall j, (j < w)%nat -> s (i + j)%nat =p 0) -> apply_at q s i =p pc q w * s (i + w)%nat.
Proof.
  induction q as [|c q IH]; intros w i D H; cbn [apply_at]; [rewrite pc_nil; reflexivity|]. destruct w as [|w].
  - rewrite Nat.add_0_r, pc_cons0. rewrite apply_zero; [rewrite Z.add_0_r; reflexivity|]. intros j. rewrite pc_nil. apply (D (S j)). lia.
  - rewrite pc_consS. rewrite (IH w (S i)); [|intros j Hj; apply (D (S j)); lia|intros j Hj; replace (S i + j)%nat with (i + S j)%nat by lia; apply H; lia]. pose proof (H O ltac:(lia)) as H0. rewrite Nat.add_0_r in H0. rewrite H0, Z.mul_0_r. replace (S i + w)%nat with (i + S w)%nat by lia. reflexivity.
Qed.
(** a recurrence of order w with w initial zeros is zero *)
Lemma recurrence_zero q s w : hdeg p q w -> annihilates p q s -> (forall i, (i < w)%nat -> s i =p 0) -> forall i, s i =p 0.
Proof.
  intros Hq A Z i. induction i as [i IH] using lt_wf_ind. destruct (Nat.lt_ge_cases i w) as [L|L]; [auto|]. pose proof (apply_top q s w (i - w) (hdeg_dlt p _ _ Hq)) as T. rewrite (A (i - w)%nat) in T. replace (i - w + w)%nat with i in T by lia. symmetry in T.
  - destruct (eqp_integral p Hp _ _ (T ltac:(intros j Hj; apply IH; lia))) as [K|K]; [destruct (proj2 Hq K)|exact K].
Qed.
Lemma pc_rev_seq s n e : (e < n)%nat -> pc (rev (map s (seq 0 n))) e = s (n - 1 - e)%nat.
Proof.
  intros H. unfold pc. rewrite rev_nth by (rewrite map_length, seq_length; exact H). rewrite map_length, seq_length. rewrite (nth_indep _ 0 (s 0%nat)) by (rewrite map_length, seq_length; lia). rewrite map_nth, seq_nth by lia. f_equal. lia.
Qed.
Lemma pc_mul_seq s n q : forall e, (e < n)%nat -> (length q <= S e)%nat -> pc (pmul q (rev (map s (seq 0 n)))) e = apply_at q s (n - 1 - e).
Proof.
  induction q as [|c q IH]; intros e He L; [cbn [pmul apply_at]; apply pc_nil|]. rewrite pc_pmul_cons. cbn [apply_at]. rewrite pc_rev_seq by exact He. cbn [length] in L. destruct e as [|e].
  - destruct q; [|cbn [length] in L; lia]. reflexivity.
  - rewrite IH by lia. f_equal. f_equal. lia.
Qed.
Lemma ann_peq q r s : q == r -> annihilates p q s -> annihilates p r s.
Proof. intros E H i. rewrite <- (apply_peq q r s i E). apply H. Qed.

(** The recurrence found from n >= 2 deg Q terms divides Q and annihilates the whole sequence. *)
Lemma minimal_core n s st d Q D : LI n (rev (map s (seq 0 n))) st d -> 2 * ndeg (qR1 st) < Z.of_nat n -> hdeg p Q D -> (2 * D <= n)%nat -> annihilates p Q s ->
  annihilates p (qV1 st) s /\ (n - d <= D)%nat /\ forall Q', annihilates p Q' s -> pdvd p (qV1 st) Q'.
Proof.
  intros [H1 H2 H3 H4 (U0 & U1 & e & E0 & E1 & ED & Ee) D0 D1 V1 V0 Ln L2] HR. set (sq := rev (map s (seq 0 n))) in *. set (V := qV1 st) in *. set (R := qR1 st) in *.
  pose proof (hf_spec n) as [hn1 hn2]. assert (DR : dlt p R (hf n)) by (apply (nf_dlt p Hp); [exact H2|unfold ndeg in HR; lia]).
  (* for any Q of degree D with 2D <= n *)
  assert (Key : forall Q D, hdeg p Q D -> (2 * D <= n)%nat -> annihilates p Q s -> exists W r w, Q == pmul W V /\ hdeg p W w /\ (w + (n - d) = D)%nat /\ dlt p r D /\ pmul W R == r).
  { intros Q' D' HQ L A. assert (HQn : hdeg p (norm p Q') D') by (rewrite norm_peq by exact Hp; exact HQ). pose proof (nf_len p Hp _ _ (nf_norm p Hp Q') HQn) as LQ.
    set (T := pmul (norm p Q') sq). assert (ET : pmul Q' sq == T) by (unfold T; rewrite norm_peq by exact Hp; reflexivity).
    set (r := firstn D' T). set (P := skipn n T). assert (Er : T == padd (pmul (pX n) P) r).
    { rewrite <- pshift_pmul. intros i. rewrite pc_padd, pc_pshift. unfold pc, r, P. destruct (Nat.ltb_spec i n) as [Li|Li].
      - destruct (Nat.lt_ge_cases i D') as [Lj|Lj].
        + rewrite <- (firstn_skipn D' T) at 1. destruct (Nat.lt_ge_cases i (length T)) as [M|M]; [rewrite app_nth1 by (rewrite firstn_length; lia); reflexivity|]. rewrite firstn_skipn, !nth_overflow; [reflexivity|rewrite firstn_length; lia|lia].
        + rewrite (nth_overflow (firstn D' T)) by (rewrite firstn_length; lia). fold (pc T i). unfold T, sq. rewrite pc_mul_seq by lia. rewrite (apply_peq _ _ s _ (norm_peq p Hp Q')). rewrite (A _). reflexivity.
      - rewrite (nth_overflow (firstn D' T)) by (rewrite firstn_length; lia). rewrite Z.add_0_r. rewrite <- (firstn_skipn n T) at 1. destruct (Nat.lt_ge_cases n (length T)) as [M|M]; [rewrite app_nth2 by (rewrite firstn_length; lia); rewrite firstn_length, Nat.min_l by lia; reflexivity|]. rewrite firstn_skipn, (skipn_all2 T) by lia. rewrite nth_overflow by lia. destruct (i - n)%nat; reflexivity. }
    assert (Dr : dlt p r D') by apply firstn_dlt. set (X := padd (pmul V P) (pmul Q' U1)). assert (EQ : psub (pmul Q' R) (pmul V r) == pmul X (pX n)).
    { rewrite <- E1. fold V. transitivity (padd (pmul (pmul Q' U1) (pX n)) (psub (pmul V (pmul Q' sq)) (pmul V r))); [ring|]. rewrite ET, Er. unfold X. ring. }
    assert (X0 : X == []).
    { destruct (deg_cases p Hp X) as [Z|(x & HX)]; [exact Z|]. exfalso. pose proof (hdeg_mul p Hp _ _ _ _ HX (hdeg_pX p Hp n)) as K. rewrite <- EQ in K. assert (B : dlt p (psub (pmul Q' R) (pmul V r)) n).
      { apply dlt_sub; [apply (dlt_le p _ (D' + hf n - 0)); [|rewrite Nat.sub_0_r; apply dlt_mul; [apply hdeg_dlt; exact HQ|exact DR]]|apply (dlt_le p _ ((n - d) + D')); [lia|apply dlt_mul; [apply hdeg_dlt; exact V1|exact Dr]]]. lia. }
      pose proof (hdeg_dlt_lt p _ _ _ K B). lia. }
    assert (QU : pmul Q' U1 == popp (pmul V P)). { apply psub_zero. transitivity X; [unfold X; ring|exact X0]. }
    set (W := pmul [e] (padd (pmul Q' U0) (pmul P (qV0 st)))). assert (EW : Q' == pmul W V).
    { assert (Sq : pmul [e] [e] == [1]) by (destruct Ee as [Ee|Ee]; rewrite Ee; reflexivity). transitivity (pmul (pmul [e] [e]) Q'); [rewrite Sq; ring|]. rewrite <- ED at 2. fold V. transitivity (pmul [e] (psub (pmul (pmul Q' U0) V) (pmul (pmul Q' U1) (qV0 st)))); [ring|]. rewrite QU. unfold W. ring. }
    pose proof HQ as K. rewrite EW in K. destruct (hdeg_factor p Hp _ _ _ K) as (w & v & Hw & Hv & Sv). pose proof (hdeg_uniq p _ _ _ Hv V1) as Ev. exists W, r, w. split; [exact EW|]. split; [exact Hw|]. split; [lia|]. split; [exact Dr|].
    apply (pmul_cancel p Hp _ _ V (hdeg_nz p _ _ V1)). transitivity (pmul Q' R); [rewrite EW; ring|]. apply psub_zero. transitivity (pmul X (pX n)); [rewrite <- EQ; ring|]. rewrite X0. reflexivity. }
  intros HQ LD A. destruct (Key Q D HQ LD A) as (W & r & w & EQ & HW & Sw & Dr & ER).
  assert (AV : annihilates p V s).
  { assert (HRv : dlt p R (n - d)).
    { destruct (deg_cases p Hp R) as [Z|(rd & Hr)]; [rewrite Z; apply dlt_nil|]. pose proof (hdeg_mul p Hp _ _ _ _ HW Hr) as K. rewrite ER in K. pose proof (hdeg_dlt_lt p _ _ _ K Dr). apply (dlt_le p _ (S rd)); [lia|apply hdeg_dlt; exact Hr]. }
    refine (recurrence_zero W (apply_at V s) w HW _ _).
    - intros i. rewrite <- apply_pmul. rewrite <- (apply_peq _ _ s i EQ). apply A.
    - intros i Hi. pose proof (nf_len p Hp _ _ H4 V1) as LV. fold V in LV. replace i with (n - 1 - (n - 1 - i))%nat by lia. rewrite <- (pc_mul_seq s n V (n - 1 - i)) by lia. fold sq. assert (T : pmul V sq == psub R (pmul (pX n) U1)) by (rewrite <- E1; ring).
      rewrite (T (n - 1 - i)%nat), pc_psub. rewrite (HRv (n - 1 - i)%nat) by lia. rewrite <- (pshift_pmul p n U1 (n - 1 - i)%nat), pc_pshift. replace (n - 1 - i <? n)%nat with true by (symmetry; apply Nat.ltb_lt; lia). reflexivity. }
  split; [exact AV|]. split; [lia|]. intros Q' A'. destruct (deg_cases p Hp Q') as [Z|(D' & HQ')]; [exists []; exact Z|].
  (* reduce Q' modulo V *)
  destruct (ndivrem_ok p Hp (norm p Q') V (n - d) (nf_norm p Hp Q') H4 V1) as (q & r' & _ & Eq & Dr' & _ & _). rewrite norm_peq in Eq by exact Hp.
  assert (Ar : annihilates p r' s).
  { intros i. assert (Er : r' == psub Q' (pmul q V)) by (rewrite Eq; ring). rewrite (apply_peq _ _ s i Er). unfold psub. rewrite apply_padd, (A' i). assert (Eo : popp (pmul q V) == pscal (-1) (pmul q V)) by (apply peq_ext; intros j; rewrite pc_popp, pc_pscal; lia). rewrite (apply_peq _ _ s i Eo), apply_pscal, apply_pmul. rewrite (apply_ext q _ (fun _ => 0) AV i).
    assert (Z : forall (l : list Z) j, apply_at l (fun _ => 0) j = 0) by (induction l as [|x l IHl]; intros j; cbn [apply_at]; [reflexivity|rewrite IHl; lia]). rewrite Z. reflexivity. }
  destruct (deg_cases p Hp r') as [Z|(dr & Hr')]; [exists q; rewrite Eq, Z; ring|]. exfalso. pose proof (hdeg_dlt_lt p _ _ _ Hr' Dr') as L. destruct (Key r' dr Hr' ltac:(lia) Ar) as (W' & _ & w' & _ & _ & Sw' & _). lia.
Qed.

Lemma bm_minimal_core B n s Q D : binv B -> bpts B = map s (seq 0 n) -> bnp B = n -> hdeg p Q D -> (2 * D <= n)%nat -> annihilates p Q s ->
  exists v, hdeg p (bV1 B) v /\ nf p (bV1 B) /\ annihilates p (bV1 B) s /\ (v <= D)%nat /\ forall Q', annihilates p Q' s -> pdvd p (bV1 B) Q'.
Proof.
  intros [_ (d & I & L)] Ep En HQ LD A. rewrite Ep, En in I. rewrite En in L. rewrite firstn_all2 in I by (rewrite map_length, seq_length; lia). destruct (minimal_core n s (bquad B) d Q D I L HQ LD A) as (K1 & K2 & K3). exists (n - d)%nat. split; [exact (li_v1 _ _ _ _ I)|]. split; [exact (li_V1 _ _ _ _ I)|]. auto.
Qed.
End B.
