From Coq Require Import ZArith NArith Arith List Bool Lia Znumtheory Setoid Morphisms Ring.
From Verif Require Import LinSpec MonoSpec MonoSpecProofs GbSpec GbProofs GbIdeal.
From Verif Require Import FpSpec FglmSpec ModInvModel NmodModel FpProofs BmModel BmProofs BmProps FglmModel MatVecProofs SeqProofs HankelProofs ShapeProofs ParamProofs FglmCore FglmProps StepSpec ParamIdeal RexFp NumProofs NsSpec NsModel.
Import ListNotations.
Open Scope Z_scope.

Section Colon.
Variables (nv : nat) (p : Z) (G : pf -> Prop) (Q : list Z).
Hypothesis NV : (1 <= nv)%nat.
Notation n := (nv - 1)%nat.
Notation I := (ideal nv p G).
Notation J := (colon nv p G Q).
Notation "a =p b" := (eqp p a b) (at level 70).
Notation X := (X nv).
Notation xn i := (xpow nv n i).
Lemma qmul_lin a f g m : qmul nv Q (fun x => a * f x + g x) m = a * qmul nv Q f m + qmul nv Q g m.
Proof.
  unfold qmul. rewrite <- sumn_scal, <- sumn_add. apply sumn_ext. intros i _. rewrite pmul_lin. ring.
Qed.
Lemma pmul_at u (f g : pf) m : length u = nv -> length m = nv -> (forall x, length x = nv -> f x =p g x) -> GbSpec.pmul u f m =p GbSpec.pmul u g m.
Proof. intros Lu Lm E. unfold GbSpec.pmul. destruct (mdvdb u m); [|reflexivity]. apply E. rewrite mquo_length; congruence. Qed.
Lemma qmul_eq f g m : length m = nv -> (forall x, length x = nv -> f x =p g x) -> qmul nv Q f m =p qmul nv Q g m.
Proof. intros Hm E. unfold qmul. apply (sumn_eqp p). intros i _. rewrite (pmul_at (xn i) f g m); [reflexivity|apply (xpow_len nv)|exact Hm|exact E]. Qed.
Lemma qmul_pmul u f m : length u = nv -> length m = nv -> qmul nv Q (GbSpec.pmul u f) m = GbSpec.pmul u (qmul nv Q f) m.
Proof.
  intros Lu Lm. unfold qmul. rewrite (pmul_sumn u (length Q) (fun i => GbSpec.pmul (xn i) f) (fun i => pc Q i) m). apply sumn_ext. intros i _. f_equal.
  rewrite (pmul_pmul nv) by (try apply (xpow_len nv); assumption). rewrite (pmul_pmul nv) by (try apply (xpow_len nv); assumption). rewrite mmul_comm; [reflexivity|]. rewrite (xpow_len nv). symmetry. exact Lu.
Qed.
(** the colon ideal is an ideal *)
Lemma colon_closed f : ideal nv p J f -> J f.
Proof.
  induction 1 as [f (u & g & Lu & Hg & ->)| |a f g _ Hf _ Hg|f g _ Hf E].
  - unfold colon. eapply I_eq; [apply (ideal_mul nv p G u); [exact Lu|exact Hg]|]. intros m Hm. rewrite (qmul_pmul u g m Lu Hm). reflexivity.
  - unfold colon. apply lspan_zero. intros m _. unfold pzero, qmul. rewrite (sumn_eqp p _ _ (fun _ => 0)); [rewrite sumn_zero; reflexivity|]. intros i _. unfold GbSpec.pmul. destruct (mdvdb _ _); rewrite Z.mul_0_r; reflexivity.
  - unfold colon. eapply I_eq; [apply lspan_add; [apply (lspan_scale nv p _ a _ Hf)|exact Hg]|]. intros m Hm. rewrite qmul_lin. reflexivity.
  - unfold colon. eapply I_eq; [exact Hf|]. intros m Hm. apply qmul_eq; [exact Hm|]. intros x Hx. specialize (E x Hx). destruct E as [z E]. exists (- z). lia.
Qed.
Lemma colon_incl f : I f -> J f.
Proof. intros H. unfold colon, qmul. apply (I_sum nv p G NV). intros i _. apply ideal_mul; [apply (xpow_len nv)|exact H]. Qed.
Lemma J_iff f : ideal nv p J f <-> J f.
Proof.
  split; [apply colon_closed|]. intros H. eapply I_eq; [apply ls_in; exists (mone nv), f; split; [apply mone_length|split; [exact H|reflexivity]]|]. intros m Hm. rewrite (GbIdeal.pmul_1 nv f m Hm). reflexivity.
Qed.
Lemma uni_shift g : forall i m, length m = nv -> GbSpec.pmul (xn i) (uni_at nv n g) m = apply_at g (fun j => X j m) i.
Proof.
  induction i as [|i IH]; intros m Hm.
  - rewrite (xpow_0 nv). rewrite (GbIdeal.pmul_1 nv _ m Hm). apply (uni_apply nv NV).
  - rewrite <- (xpow_S nv NV i). rewrite <- (pmul_pmul nv) by (try apply (xpow_len nv); exact Hm). rewrite (apply_X_S nv NV g i m Hm).
    unfold GbSpec.pmul at 1 3. destruct (mdvdb (xn 1) m); [|reflexivity]. apply IH. rewrite mquo_length; [exact Hm|]. rewrite (xpow_len nv). exact Hm.
Qed.
Lemma qmul_uni g m : length m = nv -> qmul nv Q (uni_at nv n g) m = uni_at nv n (pmul Q g) m.
Proof.
  intros Hm. rewrite (uni_apply nv NV), apply_pmul, apply_sum. unfold qmul. apply sumn_ext. intros i _. rewrite (uni_shift g i m Hm). reflexivity.
Qed.
Lemma colon_uni g : J (uni_at nv n g) <-> I (uni_at nv n (pmul Q g)).
Proof.
  unfold colon. split; intros H; (eapply I_eq; [exact H|]); intros m Hm; rewrite (qmul_uni g m Hm); reflexivity.
Qed.
End Colon.

(** Relations between x_n^i b_k and the basis give relations between the sequences. *)
Section Rel.
Variables (nv : nat) (p : Z) (G : pf -> Prop).
Hypothesis NV : (1 <= nv)%nat.
Variables (d : nat) (b : nat -> pf) (M : mat) (v : nat -> Z).
Notation D := (S d).
Notation n := (nv - 1)%nat.
Notation I := (ideal nv p G).
Notation "a =p b" := (eqp p a b) (at level 70).
Notation xn i := (xpow nv n i).
Hypothesis MM : mult_matrix nv p G D b M.
Hypothesis IND : independent nv p G D b.
Fixpoint rk (k i : nat) : nat -> Z := match i with O => fun j => delta j k | S i' => fun j => sumn D (fun t => rk k i' t * M t j) end.
Lemma rk_mpow k i : (k < D)%nat -> forall t, sumn D (fun j => rk k i j * mpow D M v t j) = mpow D M v (t + i) k.
Proof.
  intros Hk. induction i as [|i IH]; intros t.
  - cbn [rk]. rewrite (sumn_ext D _ (fun j => mpow D M v t j * delta j k)) by (intros; ring). rewrite Nat.add_0_r. apply sum_delta1. exact Hk.
  - replace (t + S i)%nat with (S t + i)%nat by lia. rewrite <- IH. cbn [rk mpow]. unfold mvec. rewrite (sumn_ext D _ (fun j => sumn D (fun s => rk k i s * M s j * mpow D M v t j))) by (intros; symmetry; apply sumn_scal_r). rewrite sumn_swap. apply sumn_ext. intros s _. rewrite <- sumn_scal. apply sumn_ext. intros j _. ring.
Qed.
Lemma pow_rk k : (k < D)%nat -> forall i, I (fun m => GbSpec.pmul (xn i) (b k) m - sumn D (fun t => rk k i t * b t m)).
Proof.
  intros Hk. induction i as [|i IH].
  - apply lspan_zero. intros m Hm. unfold pzero. cbn [rk]. rewrite (sumn_ext D _ (fun t => b t m * delta t k)) by (intros; ring). rewrite sum_delta1 by exact Hk. rewrite (xpow_0 nv). rewrite (GbIdeal.pmul_1 nv _ m Hm). exists 0. ring.
  - eapply I_eq; [apply lspan_add; [apply (ideal_mul nv p G (xn 1)); [apply (xpow_len nv)|exact IH]|apply (I_sum nv p G NV D (fun t => rk k i t) (fun t m => GbSpec.pmul (xn 1) (b t) m - sumn D (fun s => M t s * b s m))); intros t Ht; apply (proj2 MM); exact Ht]|].
    intros m Hm. cbv beta. rewrite pmul_sub. rewrite pmul_sumn. rewrite (pmul_pmul nv) by (try apply (xpow_len nv); exact Hm). rewrite (xpow_S nv NV i). cbn [rk].
    rewrite (sumn_ext D (fun t => sumn D (fun t0 => rk k i t0 * M t0 t) * b t m) (fun t => sumn D (fun s => rk k i s * (M s t * b t m)))) by (intros; rewrite <- sumn_scal_r; apply sumn_ext; intros; ring).
    rewrite sumn_swap. rewrite (sumn_ext D (fun j0 => rk k i j0 * (GbSpec.pmul (xn 1) (b j0) m - sumn D (fun s => M j0 s * b s m))) (fun t => rk k i t * GbSpec.pmul (xn 1) (b t) m + (-1) * sumn D (fun s => rk k i t * (M t s * b s m)))) by (intros; rewrite sumn_scal; ring).
    rewrite sumn_add, sumn_scal. exists 0. ring.
Qed.
Lemma qmul_rk Q k : (k < D)%nat -> I (fun m => qmul nv Q (b k) m - sumn D (fun t => sumn (length Q) (fun i => pc Q i * rk k i t) * b t m)).
Proof.
  intros Hk. eapply I_eq; [apply (I_sum nv p G NV (length Q) (fun i => pc Q i) (fun i m => GbSpec.pmul (xn i) (b k) m - sumn D (fun t => rk k i t * b t m))); intros i _; apply pow_rk; exact Hk|].
  intros m Hm. cbv beta. unfold qmul. rewrite (sumn_ext (length Q) (fun j => pc Q j * (GbSpec.pmul (xn j) (b k) m - sumn D (fun t => rk k j t * b t m))) (fun j => pc Q j * GbSpec.pmul (xn j) (b k) m + (-1) * sumn D (fun t => pc Q j * (rk k j t * b t m)))) by (intros; rewrite sumn_scal; ring).
  rewrite sumn_add, sumn_scal, sumn_swap. assert (E : sumn D (fun t => sumn (length Q) (fun i => pc Q i * rk k i t) * b t m) = sumn D (fun j => sumn (length Q) (fun i => pc Q i * (rk k i j * b j m)))).
  { apply sumn_ext. intros t _. rewrite <- sumn_scal_r. apply sumn_ext. intros i _. ring. }
  rewrite E. exists 0. ring.
Qed.
Lemma seq_rk Q k t : (k < D)%nat -> sumn D (fun j => sumn (length Q) (fun i => pc Q i * rk k i j) * mpow D M v t j) = apply_at Q (fun i => mpow D M v i k) t.
Proof.
  intros Hk. rewrite apply_sum. rewrite (sumn_ext D _ (fun j => sumn (length Q) (fun i => pc Q i * (rk k i j * mpow D M v t j)))) by (intros; rewrite <- sumn_scal_r; apply sumn_ext; intros; ring).
  rewrite sumn_swap. apply sumn_ext. intros i _. rewrite sumn_scal, (rk_mpow k i Hk t). reflexivity.
Qed.
(** Q b_k + f(x_n) in the ideal: a relation between the sequence of b_k and the first one *)
Lemma rel_seq Q k f : (k < D)%nat -> I (fun m => qmul nv Q (b k) m + uni_at nv n f m) ->
  forall t, apply_at Q (fun i => mpow D M v i k) t + apply_at f (hs d M v) t =p 0.
Proof.
  intros Hk H t. rewrite <- (seq_rk Q k t Hk), <- (ev_apply d M v f t), <- sumn_add.
  assert (Z0 : forall j, (j < D)%nat -> sumn (length Q) (fun i => pc Q i * rk k i j) + ev d M f j =p 0).
  { apply (IND (fun j => sumn (length Q) (fun i => pc Q i * rk k i j) + ev d M f j)).
    eapply I_eq; [apply lspan_sub; [exact H|apply lspan_add; [apply (qmul_rk Q k Hk)|apply (uni_ev nv p G NV d b M MM f)]]|]. intros m _. cbv beta.
    rewrite (sumn_ext D _ (fun j => sumn (length Q) (fun i => pc Q i * rk k i j) * b j m + ev d M f j * b j m)) by (intros; ring). rewrite sumn_add. exists 0. ring. }
  rewrite (sumn_eqp p D _ (fun _ => 0)); [rewrite sumn_zero; reflexivity|]. intros j Hj. cbv beta. rewrite <- Z.mul_add_distr_r, (Z0 j Hj). rewrite Z.mul_0_l. reflexivity.
Qed.
End Rel.

(** The polynomials computed from the table. *)
Section Tab.
Variable p : Z.
Hypothesis Hp : prime p.
Notation "a == b" := (peq p a b) (at level 70).
Notation "a =p b" := (eqp p a b) (at level 70).
Add Ring pr_ns : (pring p) (setoid (peq_eq p) (prext p)).
Lemma nf_skipn k : forall a, nf p a -> nf p (skipn k a).
Proof.
  induction k as [|k IH]; intros a H; [exact H|]. destruct a as [|x a]; [exact H|]. cbn [skipn]. apply IH. apply (nf_intro p).
  - intros c Hc. apply (nf_range p Hp _ H). right. exact Hc.
  - pose proof (nf_last p Hp _ H) as K. destruct a as [|y a]; [discriminate|exact K].
Qed.
Lemma column_ok len f s : (forall i, (i < len)%nat -> f i = Some (s i mod p)) -> column_poly p len f = Some (norm p (rev (map (fun i => s i mod p) (seq 0 len)))).
Proof.
  intros H. unfold column_poly. rewrite (omap_map _ (fun i => s (len - i - 1)%nat mod p)) by (intros i Hi%in_seq; apply H; lia). unfold obind. do 2 f_equal.
  apply (nth_ext _ _ 0 0); [rewrite rev_length, !map_length; reflexivity|]. intros i Hi. rewrite map_length, seq_length in Hi. rewrite rev_nth by (rewrite map_length, seq_length; exact Hi). rewrite map_length, seq_length.
  rewrite !LinTabProofs.nth_map_seq by lia. do 2 f_equal. lia.
Qed.
Lemma numerator_ok V w s : length V = S w -> numerator p V (norm p (rev (map (fun i => s i mod p) (seq 0 w)))) == Nm V s.
Proof.
  intros LV e. pose proof (p2 p Hp). unfold numerator. rewrite LV. replace (S w - 1)%nat with w by lia. rewrite pc_skipn.
  assert (E : nmul p (norm p (rev (map (fun i => s i mod p) (seq 0 w)))) V == pmul V (rev (map s (seq 0 w)))).
  { rewrite (nmul_peq p Hp), (norm_peq p Hp). transitivity (pmul V (rev (map (fun i => s i mod p) (seq 0 w)))); [ring|]. apply (pmul_m p); [reflexivity|]. intros i. unfold pc. destruct (Nat.lt_ge_cases i w) as [A|A].
    - rewrite !rev_nth by (rewrite map_length, seq_length; exact A). rewrite !map_length, !seq_length. rewrite !LinTabProofs.nth_map_seq by lia. apply eqp_mod. lia.
    - rewrite !nth_overflow by (rewrite rev_length, map_length, seq_length; exact A). reflexivity. }
  rewrite (E (w + e)%nat), num_pc by lia. rewrite Nm_pc. reflexivity.
Qed.
Lemma numerator_nf V R0 : nf p (numerator p V R0).
Proof. apply nf_skipn. apply (nf_norm p Hp). Qed.

Variables (E : list Z) (e : nat).
Hypothesis ME : monic_of_degree p E (S e).
Definition cong (a b : list Z) : Prop := pdvd p E (psub a b).
Lemma cong_refl a : cong a a. Proof. exists []. cbn [pmul]. ring. Qed.
Lemma cong_eq a b : a == b -> cong a b.
Proof. intros H. exists []. rewrite H. cbn [pmul]. ring. Qed.
Lemma cong_sym a b : cong a b -> cong b a.
Proof. intros (c & H). exists (popp c). transitivity (popp (psub a b)); [ring|]. rewrite H. ring. Qed.
Lemma cong_trans a b c : cong a b -> cong b c -> cong a c.
Proof. intros (x & X) (y & Y). exists (padd x y). transitivity (padd (psub a b) (psub b c)); [ring|]. rewrite X, Y. ring. Qed.
Lemma cong_add a b c d : cong a b -> cong c d -> cong (padd a c) (padd b d).
Proof. intros (x & X) (y & Y). exists (padd x y). transitivity (padd (psub a b) (psub c d)); [ring|]. rewrite X, Y. ring. Qed.
Lemma cong_mul a b c d : cong a b -> cong c d -> cong (pmul a c) (pmul b d).
Proof. intros (x & X) (y & Y). exists (padd (pmul x c) (pmul b y)). transitivity (padd (pmul (psub a b) c) (pmul b (psub c d))); [ring|]. rewrite X, Y. ring. Qed.
Lemma cong_opp a b : cong a b -> cong (popp a) (popp b).
Proof. intros (x & X). exists (popp x). transitivity (popp (psub a b)); [ring|]. rewrite X. ring. Qed.
Lemma rem_cong a : nf p a -> exists r, nrem p a E = Some r /\ nf p r /\ (length r <= S e)%nat /\ cong r a.
Proof.
  intros Na. destruct (nf_of_monic p Hp _ _ ME) as [Ne De]. destruct (ndivrem_ok p Hp a E (S e) Na Ne De) as (q & r & Eq & EQ & DR & _ & Nr). exists r. unfold nrem. rewrite Eq. unfold obind. cbn [snd].
  split; [reflexivity|]. split; [exact Nr|]. split; [apply (nf_dlt p Hp); assumption|]. exists (popp q). rewrite EQ. ring.
Qed.
(** a reduced polynomial is determined by its class *)
Lemma cong_unique a b : nf p a -> nf p b -> (length a <= S e)%nat -> (length b <= S e)%nat -> cong a b -> a = b.
Proof.
  intros Na Nb La Lb (c & Ec). destruct (nf_of_monic p Hp _ _ ME) as [Ne De]. apply (nf_ext p Hp); [exact Na|exact Nb|].
  destruct (div_unique p Hp c [] E (S e) b a De) as [_ K].
  - apply (nf_dlt p Hp); assumption.
  - apply (nf_dlt p Hp); assumption.
  - rewrite <- Ec. cbn [pmul]. ring.
  - rewrite K. reflexivity.
Qed.
Variable xg : list Z -> list Z -> list Z * list Z * list Z.
Hypothesis XG : xgcd_contract p xg.
Lemma inverse_ok N : nf p N -> (forall g k, hdeg p g k -> pdvd p g E -> pdvd p g N -> k = 0%nat) ->
  exists g s t, xg E N = (g, s, t) /\ ndeg g = 0 /\ nf p t /\ cong (pmul t N) [1].
Proof.
  intros NN C. pose proof (XG E N (S e) ME (nf_in p Hp _ NN) (nf_last p Hp _ NN)) as K. destruct (xg E N) as [[g s] t]. destruct K as ((k & Mg) & Rt & Lt & Eg & G1 & G2). exists g, s, t. split; [reflexivity|].
  destruct (nf_of_monic p Hp _ _ Mg) as [Ng Dg]. pose proof (C g k Dg G1 G2) as ->. destruct Mg as (Lg & Tg & _). split; [unfold ndeg; rewrite Lg; reflexivity|]. split; [apply (nf_intro p); assumption|].
  assert (g = [1]) as -> by (destruct g as [|x [|y g]]; try discriminate Lg; cbn in Tg; subst x; reflexivity). exists (popp s). rewrite Eg. ring.
Qed.
Lemma singular_ok N g0 k : nf p N -> hdeg p g0 (S k) -> pdvd p g0 E -> pdvd p g0 N -> exists g s t, xg E N = (g, s, t) /\ (ndeg g =? 0) = false.
Proof.
  intros NN Dg0 G0 G0'. pose proof (XG E N (S e) ME (nf_in p Hp _ NN) (nf_last p Hp _ NN)) as K. destruct (xg E N) as [[g s] t]. destruct K as ((k' & Mg) & _ & _ & Eg & G1 & G2). exists g, s, t. split; [reflexivity|].
  assert (D0 : pdvd p g0 g). { apply (pdvd_ext p _ _ _ (symmetry Eg)). apply (pdvd_add p); apply (pdvd_mul p); assumption. }
  destruct (nf_of_monic p Hp _ _ Mg) as [Ng Dg]. pose proof (pdvd_deg p Hp g0 g _ _ D0 Dg0 Dg). destruct Mg as (Lg & _). apply Z.eqb_neq. unfold ndeg. lia.
Qed.
End Tab.

(** b holds the squares of the variables at the places given by squ *)
Definition square_basis (nv D : nat) (squ : nat -> nat) (b : nat -> pf) : Prop :=
  forall q, (q < nv - 1)%nat -> squ q <> 0%nat -> (squ q < D)%nat /\ forall m, length m = nv -> b (squ q) m = cf [(1, xpow nv q 2)] m.

Section Core.
Variables (nv : nat) (p : Z) (G : pf -> Prop) (d : nat) (b : nat -> pf) (M : mat) (v : nat -> Z) (lin : nat -> bool) (bs : nat) (res : list Z) (squ : nat -> nat).
Hypothesis Hp : prime p.
Hypothesis PU : p < 1518500213.
Hypothesis NV : (1 <= nv)%nat.
Notation D := (S d).
Notation n := (nv - 1)%nat.
Notation I := (ideal nv p G).
Notation hs := (hs d M v).
Notation col k := (fun i => mpow D M v i k).
Notation "a == b" := (peq p a b) (at level 70).
Notation "a =p b" := (eqp p a b) (at level 70).
Add Ring pr_nc : (pring p) (setoid (peq_eq p) (prext p)).
Hypothesis MM : mult_matrix nv p G D b M.
Hypothesis IND : independent nv p G D b.
Hypothesis VB : var_basis nv lin b.
Hypothesis BS : (length (filter (fun k => negb (lin k)) (seq 0 n)) < bs)%nat.
Hypothesis BD : (bs < D)%nat.
Hypothesis T0 : forall i, (i < D)%nat -> tab res bs i 0 = Some (col 0%nat i mod p).
Hypothesis T1 : forall i j, (i < D)%nat -> (1 <= j < bs)%nat -> tab res bs i j = Some (col (S j) i mod p).
Variables (V Q E : list Z) (w e : nat).
Hypothesis MV : monic_of_degree p V w.
Hypothesis WD : (w <= D)%nat.
Hypothesis MIN : minimal_polynomial p V hs.
Hypothesis ME : monic_of_degree p E (S e).
Hypothesis VQE : V == pmul Q E.
Hypothesis VI : I (uni_at nv n V).
Notation J := (colon nv p G Q).
Variable xg : list Z -> list Z -> list Z * list Z * list Z.
Hypothesis XG : xgcd_contract p xg.
Variable al : nat -> nat.
Notation cong := (cong p E).

Lemma EJ : ideal nv p J (uni_at nv n E).
Proof. apply (J_iff nv p G Q NV). apply (colon_uni nv p G Q NV). eapply I_eq; [exact VI|]. intros m _. apply (uni_peq nv p NV). symmetry. exact VQE. Qed.
Lemma E_V : pdvd p E V. Proof. exists Q. exact VQE. Qed.
(** x_k + c(x_n) in the colon ideal: the numerators *)
Lemma num_rel k c f : (k < D)%nat -> J (fun m => b k m + uni_at nv n f m) -> f == c -> cong (Nm V (col k)) (popp (pmul c (Nm V hs))).
Proof.
  intros Hk H Efc. assert (R : forall t, apply_at Q (col k) t =p - apply_at Q (apply_at f hs) t).
  { intros t. pose proof (rel_seq nv p G NV d b M v MM IND Q k (pmul Q f) Hk) as K. rewrite <- apply_pmul. assert (K0 : apply_at Q (col k) t + apply_at (pmul Q f) hs t =p 0).
    { apply K. eapply I_eq; [exact H|]. intros m Hm. pose proof (qmul_lin nv Q 1 (b k) (uni_at nv n f) m) as L. rewrite (qmul_uni nv Q NV f m Hm) in L. pose proof (qmul_eq nv p Q (fun x => 1 * b k x + uni_at nv n f x) (fun m => b k m + uni_at nv n f m) m Hm) as L2. transitivity (qmul nv Q (fun x => 1 * b k x + uni_at nv n f x) m); [rewrite L; exists 0; ring|]. apply L2. intros x _. exists 0. ring. }
    destruct K0 as [z K0]. exists z. lia. }
  apply (cong_trans p E _ (Nm E (apply_at Q (col k)))); [apply (Nm_part p); exact VQE|].
  apply (cong_trans p E _ (popp (Nm V (apply_at f hs)))).
  - apply (cong_trans p E _ (popp (Nm E (apply_at Q (apply_at f hs))))).
    + apply cong_eq. rewrite (Nm_ext p E _ (fun t => -1 * apply_at Q (apply_at f hs) t)); [rewrite (Nm_scal_seq p); intros i; rewrite pc_pscal, pc_popp; exists 0; ring|]. intros t. rewrite R. exists 0. ring.
    + apply cong_opp. apply cong_sym. apply (Nm_part p). exact VQE.
  - apply cong_opp. apply (cong_trans p E _ (pmul f (Nm V hs))); [|apply cong_mul; [apply cong_eq; exact Efc|apply cong_refl]]. unfold NsProofs.cong. apply (pdvd_trans p _ V); [apply E_V|]. apply (Nm_shift p). apply MIN.
Qed.
Lemma LV : length V = S w. Proof. apply MV. Qed.
Lemma N1_coprime N g k : cong N (Nm V hs) -> hdeg p g k -> pdvd p g E -> pdvd p g N -> k = 0%nat.
Proof.
  intros H Dg G1 G2. destruct (nf_of_monic p Hp _ _ MV) as [_ DV]. apply (Nm_coprime p Hp V w hs g k DV MIN Dg); [apply (pdvd_trans p _ E); [exact G1|apply E_V]|].
  apply (pdvd_ext p _ (padd N (pmul [-1] (psub N (Nm V hs))))).
  - intros i. cbn [pmul]. unfold psub. rewrite !pc_padd, pc_pscal, pc_padd, pc_popp. destruct i; [rewrite pc_cons0|rewrite pc_consS, pc_nil]; exists 0; ring.
  - apply (pdvd_add p); [exact G2|]. apply (pdvd_mul p). apply (pdvd_trans p _ E); assumption.
Qed.
(** invert_table_polynomial for the first column *)
Lemma invert_first : exists t, invert_table p xg V E res bs 0 0 = Some (true, t) /\ nf p t /\ cong (pmul t (Nm V hs)) [1].
Proof.
  unfold invert_table. rewrite LV. replace (S w - 1)%nat with w by lia. cbn [Z.eqb]. rewrite (column_ok p w _ (col 0%nat)) by (intros i Hi; apply T0; lia). unfold obind.
  set (R0 := norm p _). pose proof (numerator_ok p Hp V w (col 0%nat) LV) as EN.
  assert (EN' : numerator p V R0 == Nm V hs) by exact EN. clear EN.
  destruct (inverse_ok p Hp E e ME xg XG (numerator p V R0) (numerator_nf p Hp V R0)) as (g & s & t & -> & Dg & Nt & C).
  { intros g k. apply N1_coprime. apply cong_eq. exact EN'. }
  exists t. rewrite Dg. split; [reflexivity|]. split; [exact Nt|]. apply (cong_trans p E _ (pmul t (numerator p V R0))); [|exact C]. apply cong_eq. rewrite EN'. reflexivity.
Qed.
Lemma nneg_cong r a : cong r (popp a) -> cong (nneg p r) a.
Proof. intros H. apply (cong_trans p E _ (popp r)); [apply cong_eq; apply (norm_peq p Hp)|]. apply (cong_trans p E _ (popp (popp a))); [apply cong_opp; exact H|]. apply cong_eq. ring. Qed.
(** divide_table_polynomials on a column holding s *)
Lemma divide_ok Z2 nc lambda s : nf p Z2 ->
  (forall i, (i < w)%nat -> (if lambda =? 0 then tab res bs i nc else let? a := tab res bs i nc in let? b := tab res bs (D + i) nc in Some ((b + wrap64 (lambda * a) mod p) mod p)) = Some (s i mod p)) ->
  exists r, divide_table p V E Z2 res D bs nc lambda = Some r /\ nf p r /\ (length r <= S e)%nat /\ cong r (pmul (Nm V s) Z2).
Proof.
  intros NZ H. unfold divide_table. rewrite LV. replace (S w - 1)%nat with w by lia. rewrite (column_ok p w _ s) by exact H. unfold obind at 1.
  destruct (rem_cong p Hp E e ME (nmul p (numerator p V (norm p (rev (map (fun i => s i mod p) (seq 0 w))))) Z2) (nf_norm p Hp _)) as (r & Er & Nr & Lr & Cr). exists r. split; [exact Er|]. split; [exact Nr|]. split; [exact Lr|].
  apply (cong_trans p E _ _ _ Cr). apply cong_eq. rewrite (nmul_peq p Hp), (numerator_ok p Hp V w s LV). reflexivity.
Qed.
Lemma strip_len a : (length (strip a) <= length a)%nat.
Proof. induction a as [|x a IH]; [reflexivity|]. cbn [strip]. destruct (strip a); [destruct (x =? 0); cbn [length]; lia|cbn [length] in *; lia]. Qed.
Lemma nneg_len r : (length (nneg p r) <= length r)%nat.
Proof. unfold nneg, norm. pose proof (strip_len (map (fun x => x mod p) (popp r))) as K. rewrite map_length in K. unfold popp in *. rewrite map_length in K. exact K. Qed.
Lemma coord_J q c c' : J (coord_poly nv q n c) -> cong c' c -> ideal nv p J (coord_poly nv q n c').
Proof.
  intros H (h & Eh). eapply I_eq; [apply lspan_add; [apply (J_iff nv p G Q NV); exact H|apply (uni_mul nv p J NV h E EJ)]|]. intros m _. cbv beta. unfold coord_poly. rewrite <- (uni_peq nv p NV _ _ m Eh). unfold psub.
  rewrite (uni_padd nv NV). assert (P : uni_at nv n (popp c) m =p - uni_at nv n c m). { transitivity (uni_at nv n (pscal (-1) c) m); [apply (uni_peq nv p NV); intros i; rewrite pc_popp, pc_pscal; exists 0; ring|]. rewrite (uni_pscal nv NV). exists 0. ring. } rewrite P. exists 0. ring.
Qed.
Definition goodJ (q : nat) (c : list Z) : Prop := nf p c /\ (length c <= S e)%nat /\ (lin q = false -> ideal nv p J (coord_poly nv q n c)).
Hypothesis CE : coords_exist nv p J lin.
Hypothesis AL : (2 <= al (S e))%nat.
Lemma filter_cnt (f : nat -> bool) l : (length (filter f l) + length (filter (fun k => negb (f k)) l) = length l)%nat.
Proof. clear. induction l as [|k l IH]; [reflexivity|]. cbn [filter length]. destruct (f k); cbn [negb length]; lia. Qed.
Lemma place_ok nc q dec : (nc < n)%nat -> q = (nv - 2 - nc)%nat -> lin q = false -> dec = length (filter lin (seq (S q) nc)) ->
  var_place nv lin q = S (nc + 1 - dec) /\ (1 <= nc + 1 - dec < bs)%nat.
Proof.
  intros Hn Eq0 Lq Ed. pose proof (filter_cnt lin (seq (S q) nc)) as FC. rewrite seq_length, <- Ed in FC. split.
  - unfold var_place. replace (nv - 2 - q)%nat with nc by lia. lia.
  - replace (seq 0 n) with (seq 0 q ++ q :: seq (S q) nc) in BS. 2: { replace n with (q + S nc)%nat by lia. rewrite seq_app. reflexivity. } rewrite filter_app, app_length in BS. cbn [filter] in BS. rewrite Lq in BS. cbn [negb length] in BS. lia.
Qed.
Lemma ns_coords_ok Z2 : nf p Z2 -> cong (pmul Z2 (Nm V hs)) [1] -> forall k nc dec acc, (nc + k = n)%nat -> dec = length (filter lin (seq (n - nc) nc)) -> length acc = nc ->
  (forall i, (i < nc)%nat -> goodJ (n - nc + i) (nth i acc [])) ->
  exists cs, ns_coords p al V E Z2 res D bs lin nv k nc dec acc = Some cs /\ length cs = n /\ forall q, (q < n)%nat -> goodJ q (nth q cs []).
Proof.
  intros NZ CZ. induction k as [|k IH]; intros nc dec acc Ek Ed La Ha.
  - exists acc. split; [reflexivity|]. split; [lia|]. intros q Hq. specialize (Ha q). replace (n - nc + q)%nat with q in Ha by lia. apply Ha. lia.
  - cbn [ns_coords]. set (q := (nv - 2 - nc)%nat). assert (Eq1 : (n - S nc)%nat = q) by (unfold q; lia). assert (Eq2 : (n - nc)%nat = S q) by (unfold q; lia).
    assert (SQ : seq (n - S nc) (S nc) = q :: seq (S q) nc) by (rewrite Eq1; reflexivity). rewrite Eq2 in *.
    destruct (lin q) eqn:Lq.
    + apply IH; [lia|rewrite SQ; cbn [filter]; rewrite Lq; cbn [length]; lia|cbn [length]; lia|]. intros i Hi. rewrite Eq1. destruct i as [|i]; cbn [nth].
      * rewrite Nat.add_0_r. split; [reflexivity|]. split; [cbn [length]; lia|]. intros F. congruence.
      * replace (q + S i)%nat with (S q + i)%nat by lia. apply Ha. lia.
    + destruct (place_ok nc q dec ltac:(lia) eq_refl Lq Ed) as [VP JB]. set (j := (nc + 1 - dec)%nat) in *.
      destruct (divide_ok Z2 j 0 (col (S j)) NZ) as (r & Er & Nr & Lr & Cr). { intros i Hi. cbn [Z.eqb]. apply T1; lia. }
      rewrite Er. unfold obind at 1. assert (LE : length E = S (S e)) by apply ME. rewrite LE. replace (S (S e) - 1)%nat with (S e) by lia. replace (al (S e) <? 2)%nat with false by (symmetry; apply Nat.ltb_ge; exact AL). rewrite andb_false_r.
      apply IH; [lia|rewrite SQ; cbn [filter]; rewrite Lq; exact Ed|cbn [length]; lia|]. intros i Hi. rewrite Eq1. destruct i as [|i]; cbn [nth].
      * rewrite Nat.add_0_r. split; [apply (nf_norm p Hp)|]. split; [pose proof (nneg_len r); lia|]. intros _. destruct (CE q ltac:(unfold q; lia) Lq) as (c & Hc). apply (J_iff nv p G Q NV) in Hc. apply (coord_J q c _ Hc).
        apply nneg_cong. apply (cong_trans p E _ _ _ Cr). assert (NR : cong (Nm V (col (S j))) (popp (pmul c (Nm V hs)))).
        { apply (num_rel (S j) c c); [lia| |reflexivity]. apply (J_iff nv p G Q NV). eapply I_eq; [apply (J_iff nv p G Q NV); exact Hc|]. intros m _. unfold coord_poly. rewrite <- (VB q m) by (try exact Lq; unfold q; lia). rewrite VP. reflexivity. }
        apply (cong_trans p E _ (pmul (popp (pmul c (Nm V hs))) Z2)); [apply cong_mul; [exact NR|apply cong_refl]|]. apply (cong_trans p E _ (popp (pmul c (pmul Z2 (Nm V hs))))); [apply cong_eq; ring|].
        apply (cong_trans p E _ (popp (pmul c [1]))); [apply cong_opp; apply cong_mul; [apply cong_refl|exact CZ]|]. apply cong_eq. ring.
      * replace (q + S i)%nat with (S q + i)%nat by lia. apply Ha. lia.
Qed.
Hypothesis T2 : forall i q, (i < D)%nat -> (q < n)%nat -> lin q = false -> squ q <> 0%nat -> tab res bs (D + i) (var_place nv lin q - 1) = Some (col (squ q) i mod p).
Hypothesis SB : square_basis nv D squ b.
Variable lam : nat -> Z.
Hypothesis LM : forall k, 1 <= lam k < p.
Lemma lin_entry l x y : 1 <= l < p -> (y mod p + wrap64 (l * (x mod p)) mod p) mod p = (y + l * x) mod p.
Proof.
  intros Hl. pose proof (p2 p Hp). pose proof (Z.mod_pos_bound x p ltac:(lia)). unfold wrap64. rewrite (Z.mod_small (l * (x mod p)) (2 ^ 64)) by nia. rewrite Zmult_mod_idemp_r, <- Zplus_mod. reflexivity.
Qed.
(** the sum of two columns *)
Lemma Nm_two s t l : Nm V (fun i => s i + l * t i) == padd (Nm V s) (pmul [l] (Nm V t)).
Proof. rewrite (Nm_add_seq p), (Nm_scal_seq p). intros i. cbn [pmul]. rewrite !pc_padd. destruct i; [rewrite pc_cons0|rewrite pc_consS, pc_nil]; exists 0; ring. Qed.
Definition meets (q : nat) (c : list Z) : Prop := forall g k, hdeg p g k -> pdvd p g E -> pdvd p g (psub [lam (nv - 2 - q)%nat] c) -> k = 0%nat.
Lemma verify_step cs nc q dec : (nc < n)%nat -> q = (nv - 2 - nc)%nat -> lin q = false -> squ q <> 0%nat -> dec = length (filter lin (seq (S q) nc)) -> goodJ q (nth q cs []) ->
  exists it r, invert_table p xg V E res bs (nc + 1 - dec) (lam nc) = Some it /\ divide_table p V E (snd it) res D bs (nc + 1 - dec) (lam nc) = Some r /\ (meets q (nth q cs []) -> nth q cs [] = nneg p r).
Proof.
  intros Hn Eq0 Lq Sq Ed (Nc & Lc & Gc). destruct (place_ok nc q dec Hn Eq0 Lq Ed) as [VP JB]. set (j := (nc + 1 - dec)%nat) in *. set (l := lam nc). pose proof (LM nc) as Rl. fold l in Rl. assert (l0 : (l =? 0) = false) by (apply Z.eqb_neq; lia).
  set (c := nth q cs []) in *. specialize (Gc Lq). apply (J_iff nv p G Q NV) in Gc. destruct (SB q ltac:(lia) Sq) as [SD SBq].
  assert (NR : cong (Nm V (col (S j))) (popp (pmul c (Nm V hs)))).
  { apply (num_rel (S j) c c); [lia| |reflexivity]. apply (J_iff nv p G Q NV). eapply I_eq; [apply (J_iff nv p G Q NV); exact Gc|]. intros m _. unfold coord_poly. rewrite <- (VB q m) by (try exact Lq; lia). rewrite VP. reflexivity. }
  assert (NS : cong (Nm V (col (squ q))) (pmul (pmul c c) (Nm V hs))).
  { apply (cong_trans p E _ (popp (pmul (popp (pmul c c)) (Nm V hs)))); [|apply cong_eq; ring]. apply (num_rel (squ q) (popp (pmul c c)) (pscal (-1) (pmul c c))); [exact SD| |intros i; rewrite pc_pscal, pc_popp; exists 0; ring].
    apply (J_iff nv p G Q NV). assert (GJ : ideal nv p J (coord_poly nv q n c)) by (apply (J_iff nv p G Q NV); exact Gc). assert (Hq : (q < n)%nat) by lia.
    eapply I_eq; [apply lspan_sub; [apply (ideal_mul nv p J (xpow nv q 1)); [apply (xpow_len nv)|exact GJ]|apply (coord_uni nv p J NV q c c Hq GJ)]|].
    intros m Hm. cbv beta. rewrite (SBq m Hm). assert (PA : GbSpec.pmul (xpow nv q 1) (coord_poly nv q n c) m = cf [(1, mmul (xpow nv q 1) (xpow nv q 1))] m + GbSpec.pmul (xpow nv q 1) (uni_at nv n c) m).
    { etransitivity; [apply (pmul_add (xpow nv q 1) (cf [(1, xpow nv q 1)]) (uni_at nv n c))|]. f_equal. apply (pmul_mono nv); try apply (xpow_len nv); exact Hm. }
    rewrite PA. replace (mmul (xpow nv q 1) (xpow nv q 1)) with (xpow nv q 2).
    - rewrite (uni_pscal nv NV). exists 0. ring.
    - apply (BasisProofs.mono_ext nv); [apply (xpow_len nv)|rewrite mmul_length; rewrite !(xpow_len nv); reflexivity|]. intros i Hi. rewrite ex_mmul by (rewrite !(xpow_len nv); reflexivity). unfold ex, xpow. rewrite !LinTabProofs.nth_map_seq by exact Hi. destruct (Nat.eqb_spec i q); reflexivity. }
  set (s1 := fun i => col (S j) i + l * col 0%nat i). set (s2 := fun i => col (squ q) i + l * col (S j) i).
  assert (TI : forall i, (i < D)%nat -> (if l =? 0 then tab res bs i j else let? a := tab res bs i 0 in let? b := tab res bs i j in Some ((b + wrap64 (l * a) mod p) mod p)) = Some (s1 i mod p)).
  { intros i Hi. rewrite l0, T0 by exact Hi. unfold obind at 1. rewrite T1 by (try exact Hi; exact JB). unfold obind. rewrite (lin_entry l _ _ Rl). reflexivity. }
  unfold invert_table. rewrite LV. replace (S w - 1)%nat with w by lia. rewrite (column_ok p w _ s1) by (intros i Hi; apply TI; lia). unfold obind at 1. pose proof (numerator_ok p Hp V w s1 LV) as EN. pose proof (numerator_nf p Hp V (norm p (rev (map (fun i => s1 i mod p) (seq 0 w))))) as NN.
  set (N := numerator p V _) in *. clearbody N.
  assert (CN : cong N (pmul (psub [l] c) (Nm V hs))).
  { apply (cong_trans p E _ (padd (Nm V (col (S j))) (pmul [l] (Nm V hs)))); [apply cong_eq; rewrite EN; apply Nm_two|]. apply (cong_trans p E _ (padd (popp (pmul c (Nm V hs))) (pmul [l] (Nm V hs)))); [apply cong_add; [exact NR|apply cong_refl]|]. apply cong_eq. ring. }
  pose proof (XG E N (S e) ME (nf_in p Hp _ NN) (nf_last p Hp _ NN)) as K. destruct (xg E N) as [[g s] t] eqn:EX. destruct K as (_ & Rt & Lt & _).
  assert (Nt : nf p t) by (apply (nf_intro p); assumption). exists (ndeg g =? 0, t). cbn [snd].
  destruct (divide_ok t j l s2 Nt) as (r & Er & Nr & Lr & Cr).
  { intros i Hi. rewrite l0, T1 by (try exact JB; lia). unfold obind at 1. pose proof (T2 i q ltac:(lia) ltac:(lia) Lq Sq) as T. rewrite VP in T. replace (S j - 1)%nat with j in T by lia. rewrite T. unfold obind. rewrite (lin_entry l _ _ Rl). reflexivity. }
  exists r. split; [reflexivity|]. split; [exact Er|]. intros MT.
  destruct (inverse_ok p Hp E e ME xg XG N NN) as (g' & s' & t' & EX' & _ & _ & CT).
  { intros g0 k Dg G1 G2. destruct (bezout p Hp g0 (psub [l] c)) as (h & x & y & Eh & H1 & H2).
    assert (Z0 : forall z, hdeg p h z -> z = 0%nat). { intros z Dz. apply (MT h z Dz); [apply (pdvd_trans p _ g0); assumption|]. replace (nv - 2 - q)%nat with nc by lia. exact H2. }
    assert (NZ : exists z, hdeg p h z). { destruct (deg_cases p Hp h) as [Zh|X]; [|exact X]. exfalso. destruct H1 as (u & Hu). destruct Dg as [_ Dg]. apply Dg. assert (G0 : g0 == []) by (rewrite Hu, Zh; ring). rewrite (G0 k), pc_nil. reflexivity. }
    destruct NZ as (z & Dz). pose proof (Z0 z Dz) as ->. destruct (unit_const p Hp h Dz) as (u & Hu).
    (* g0 divides (l - c) N1, and u h = 1, so g0 divides N1 *)
    apply (N1_coprime (Nm V hs) g0 k (cong_refl p E _) Dg G1). 
    assert (GN : pdvd p g0 (pmul (psub [l] c) (Nm V hs))). { apply (pdvd_ext p _ (padd N (pmul (popp [1]) (psub N (pmul (psub [l] c) (Nm V hs)))))); [|apply (pdvd_add p); [exact G2|apply (pdvd_mul p); apply (pdvd_trans p _ E); assumption]].
      ring. }
    apply (pdvd_ext p _ (pscal u (padd (pmul (pmul x (Nm V hs)) g0) (pmul y (pmul (psub [l] c) (Nm V hs)))))).
    - rewrite (pscal_pmul p) in Hu |- *. transitivity (pmul (pmul [u] h) (Nm V hs)); [rewrite Eh; ring|]. rewrite Hu. ring.
    - apply (pdvd_ext p _ (pmul [u] (padd (pmul (pmul x (Nm V hs)) g0) (pmul y (pmul (psub [l] c) (Nm V hs)))))); [symmetry; apply (pscal_pmul p)|]. apply (pdvd_mul p). apply (pdvd_add p); [apply (pdvd_mul p); apply (pdvd_refl p)|apply (pdvd_mul p); exact GN]. }
  rewrite EX in EX'. injection EX' as <- <- <-.
  apply (cong_unique p Hp E e ME); [exact Nc|apply (nf_norm p Hp)|exact Lc|pose proof (nneg_len r); lia|]. apply cong_sym. apply nneg_cong. apply (cong_trans p E _ _ _ Cr).
  apply (cong_trans p E _ (pmul (padd (pmul (pmul c c) (Nm V hs)) (pmul [l] (popp (pmul c (Nm V hs))))) t)).
  { apply cong_mul; [|apply cong_refl]. apply (cong_trans p E _ (padd (Nm V (col (squ q))) (pmul [l] (Nm V (col (S j)))))); [apply cong_eq; apply Nm_two|]. apply cong_add; [exact NS|]. apply cong_mul; [apply cong_refl|exact NR]. }
  apply (cong_trans p E _ (popp (pmul c (pmul t (pmul (psub [l] c) (Nm V hs)))))); [apply cong_eq; ring|]. apply cong_opp. apply (cong_trans p E _ (pmul c [1])); [|apply cong_eq; ring]. apply cong_mul; [apply cong_refl|].
  apply (cong_trans p E _ (pmul t N)); [|exact CT]. apply cong_mul; [apply cong_refl|apply cong_sym; exact CN].
Qed.
Lemma ns_verify_ok cs : (forall q, (q < n)%nat -> goodJ q (nth q cs [])) -> forall k nc dec ok, (nc + k = n)%nat -> dec = length (filter lin (seq (n - nc) nc)) ->
  exists ok', ns_verify p xg V E res D bs lin squ lam cs nv k nc dec ok = Some ok' /\ ((forall q, (q < n)%nat -> lin q = false -> squ q <> 0%nat -> meets q (nth q cs [])) -> ok' = ok).
Proof.
  intros GC. induction k as [|k IH]; intros nc dec ok Ek Ed.
  - exists ok. split; [reflexivity|]. intros _. reflexivity.
  - cbn [ns_verify]. set (q := (nv - 2 - nc)%nat). assert (Eq1 : (n - S nc)%nat = q) by (unfold q; lia). assert (Eq2 : (n - nc)%nat = S q) by (unfold q; lia).
    assert (SQ : seq (n - S nc) (S nc) = q :: seq (S q) nc) by (rewrite Eq1; reflexivity). rewrite Eq2 in *.
    destruct (lin q) eqn:Lq; [apply IH; [lia|rewrite SQ; cbn [filter]; rewrite Lq; cbn [length]; lia]|].
    assert (Ed' : dec = length (filter lin (seq (n - S nc) (S nc)))) by (rewrite SQ; cbn [filter]; rewrite Lq; exact Ed).
    destruct (Nat.eqb_spec (squ q) 0) as [Sq|Sq]; [apply IH; [lia|exact Ed']|].
    destruct (verify_step cs nc q dec ltac:(lia) eq_refl Lq Sq Ed (GC q ltac:(unfold q; lia))) as (it & r & E1 & E2 & E3). rewrite E1. unfold obind at 1. rewrite E2. unfold obind at 1.
    destruct (IH (S nc) dec (ok && (if list_eq_dec Z.eq_dec (nth q cs []) (nneg p r) then true else false)) ltac:(lia) Ed') as (ok' & Eo & Ho). exists ok'. split; [exact Eo|]. intros HM. rewrite (Ho HM).
    destruct (list_eq_dec Z.eq_dec (nth q cs []) (nneg p r)) as [_|N0]; [apply andb_true_r|]. exfalso. apply N0. apply E3. apply HM; [unfold q; lia|exact Lq|exact Sq].
Qed.
End Core.
