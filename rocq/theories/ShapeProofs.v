(** Linear algebra behind the parametrisation: when the scalar sequence of a D x D matrix has a minimal polynomial of
    degree D, the Hankel matrix is invertible and every unit vector is a polynomial in the matrix applied to the first one. *)
From Coq Require Import ZArith Arith List Bool Lia Znumtheory Setoid Morphisms Ring.
From Verif Require Import LinSpec FpSpec FglmSpec ModInvModel NmodModel FpProofs BmModel BmProofs BmProps FglmModel MatVecProofs HankelProofs.
Import ListNotations.
Open Scope Z_scope.

Fixpoint lc (cs : list Z) (L : list (nat -> Z)) (k : nat) : Z :=
  match cs, L with c :: cs', v :: L' => c * v k + lc cs' L' k | _, _ => 0 end.
Lemma lc_app a A b B k : length a = length A -> lc (a ++ b) (A ++ B) k = lc a A k + lc b B k.
Proof. revert A. induction a as [|c a IH]; intros [|v A] H; try discriminate H; cbn [app lc]; [lia|]. rewrite IH by (injection H; auto). lia. Qed.
Lemma lc_scal c cs L k : lc (map (Z.mul c) cs) L k = c * lc cs L k.
Proof. revert L. induction cs as [|x cs IH]; intros [|v L]; cbn [map lc]; try lia. rewrite IH. lia. Qed.
Lemma lc_elim cs (v : nat -> Z) a k n : forall L, length cs = length L -> lc cs (map (fun u t => a * u t - u n * v t) L) k = a * lc cs L k - lc cs L n * v k.
Proof. induction cs as [|x cs IH]; intros [|u L] H; try discriminate H; cbn [map lc]; [lia|]. rewrite IH by (injection H; auto). lia. Qed.

Section Lin.
Variable p : Z.
Hypothesis Hp : prime p.
Notation "a == b" := (peq p a b) (at level 70).
Notation "a =p b" := (eqp p a b) (at level 70).
Add Ring fp_ring6 : (pring p) (setoid (peq_eq p) (prext p)).
(** more vectors than coordinates are linearly dependent *)
Lemma dependent : forall n (L : list (nat -> Z)), (n < length L)%nat ->
  exists cs, length cs = length L /\ (exists c, In c cs /\ ~ c =p 0) /\ forall k, (k < n)%nat -> lc cs L k =p 0.
Proof.
  induction n as [|n IH]; intros L HL.
  - destruct L as [|v L]; [cbn in HL; lia|]. exists (1 :: map (fun _ => 0) L). split; [cbn [length]; rewrite map_length; reflexivity|]. split; [exists 1; split; [left; reflexivity|apply one_ne; exact Hp]|]. intros k Hk. lia.
  - assert (C : (forall v, In v L -> v n =p 0) \/ exists v, In v L /\ ~ v n =p 0).
    { clear HL IH. induction L as [|v L IHL]; [left; intros v []|]. destruct (eqp_dec p Hp (v n) 0) as [E|E]; [|right; exists v; split; [left; reflexivity|exact E]]. destruct IHL as [A|(u & I & N)]; [left; intros u [->|I]; [exact E|exact (A u I)]|right; exists u; split; [right; exact I|exact N]]. }
    destruct C as [A|(v & I & N)].
    + destruct (IH L ltac:(lia)) as (cs & Lc & Nz & Z). exists cs. split; [exact Lc|]. split; [exact Nz|]. intros k Hk. destruct (Nat.eq_dec k n) as [->|Ne]; [|apply Z; lia]. clear - A. revert L A. induction cs as [|c cs IHc]; intros [|v L] A; cbn [lc]; try reflexivity. rewrite (A v (or_introl eq_refl)), IHc by (intros u I; apply A; right; exact I). rewrite Z.mul_0_r. reflexivity.
    + apply in_split in I as (L1 & L2 & ->). rewrite app_length in HL. cbn [length] in HL. destruct (IH (map (fun u t => v n * u t - u n * v t) (L1 ++ L2))) as (cs & Lc & (c & Ic & Nc) & Z); [rewrite map_length, app_length; lia|]. rewrite map_length in Lc.
      set (c1 := firstn (length L1) cs). set (c2 := skipn (length L1) cs). assert (Ec : c1 ++ c2 = cs) by apply firstn_skipn. rewrite app_length in Lc. assert (Lc1 : length c1 = length L1) by (unfold c1; rewrite firstn_length; lia). assert (Lc2 : length c2 = length L2) by (unfold c2; rewrite skipn_length; lia).
      assert (EL : forall k, lc cs (L1 ++ L2) k = lc c1 L1 k + lc c2 L2 k) by (intros k; rewrite <- Ec; apply lc_app; exact Lc1).
      exists (map (Z.mul (v n)) c1 ++ (- lc cs (L1 ++ L2) n) :: map (Z.mul (v n)) c2). split; [rewrite !app_length; cbn [length]; rewrite !map_length; lia|]. split.
      * exists (v n * c). split; [|intros K; destruct (eqp_integral p Hp _ _ K); contradiction]. rewrite <- Ec in Ic. apply in_or_app. apply in_app_or in Ic as [Ic|Ic]; [left|right; right]; apply in_map; exact Ic.
      * intros k Hk. assert (E : lc (map (Z.mul (v n)) c1 ++ - lc cs (L1 ++ L2) n :: map (Z.mul (v n)) c2) (L1 ++ v :: L2) k = v n * lc cs (L1 ++ L2) k - lc cs (L1 ++ L2) n * v k).
        { rewrite lc_app by (rewrite map_length; exact Lc1). cbn [lc]. rewrite !lc_scal, (EL k). ring. }
        rewrite E. destruct (Nat.eq_dec k n) as [->|Ne]; [exists 0; ring|]. rewrite <- (lc_elim cs v (v n) k n (L1 ++ L2)) by (rewrite app_length; lia). apply Z. lia.
Qed.

Variables (d : nat) (M : mat) (v : nat -> Z).
Notation D := (S d).
(** the first row of the i-th power *)
Fixpoint rw (i : nat) : nat -> Z := match i with O => fun j => delta j 0 | S i' => fun j => sumn D (fun t => rw i' t * M t j) end.
Definition hs (i : nat) : Z := mpow D M v i 0%nat.
Lemma rw_mpow i : forall t, sumn D (fun k => rw i k * mpow D M v t k) = mpow D M v (i + t) 0%nat.
Proof.
  induction i as [|i IH]; intros t.
  - cbn [rw Nat.add]. rewrite (sumn_ext D _ (fun k => mpow D M v t k * delta k 0)) by (intros; ring). apply sum_delta1. lia.
  - replace (S i + t)%nat with (i + S t)%nat by lia. rewrite <- IH. cbn [rw mpow]. unfold mvec. rewrite (sumn_ext D _ (fun k => sumn D (fun s => rw i s * M s k * mpow D M v t k))) by (intros; symmetry; apply sumn_scal_r). rewrite sumn_swap. apply sumn_ext. intros s _. rewrite <- sumn_scal. apply sumn_ext. intros k _. ring.
Qed.
Definition ev (f : list Z) (k : nat) : Z := apply_at f (fun i => rw i k) 0.
Lemma ev_apply f t : sumn D (fun k => ev f k * mpow D M v t k) = apply_at f hs t.
Proof.
  unfold ev. rewrite apply_sum. rewrite (sumn_ext D _ (fun k => sumn (length f) (fun j => pc f j * rw (0 + j) k * mpow D M v t k))) by (intros k _; rewrite apply_sum, <- sumn_scal_r; reflexivity).
  rewrite sumn_swap. apply sumn_ext. intros j _. cbn [Nat.add]. unfold hs. rewrite (Nat.add_comm t j), <- rw_mpow, <- sumn_scal. apply sumn_ext. intros k _. ring.
Qed.
Lemma ev_zero_ann f : (forall k, (k < D)%nat -> ev f k =p 0) -> annihilates p f hs.
Proof. intros H t. rewrite <- ev_apply. rewrite (sumn_eqp p D _ (fun _ => 0)); [rewrite sumn_zero; reflexivity|]. intros k Hk. rewrite (H k Hk), Z.mul_0_l. reflexivity. Qed.
Lemma ev_peq f g k : f == g -> ev f k =p ev g k.
Proof. intros H. apply apply_peq; assumption. Qed.
Lemma lc_rw cs : forall n k, lc cs (map (fun i => rw i) (seq n (length cs))) k = apply_at cs (fun i => rw i k) n.
Proof. induction cs as [|c cs IH]; intros n k; [reflexivity|]. cbn [length seq map lc apply_at]. rewrite IH. reflexivity. Qed.
(** an annihilator of degree at most D *)
Lemma cayley : exists Q e, hdeg p Q e /\ (e <= D)%nat /\ forall k, (k < D)%nat -> ev Q k =p 0.
Proof.
  destruct (dependent D (map (fun i => rw i) (seq 0 (S D)))) as (cs & L & (c & Ic & Nc) & Z); [rewrite map_length, seq_length; lia|]. rewrite map_length, seq_length in L. destruct (deg_cases p Hp cs) as [E|(e & He)].
  - exfalso. apply (In_nth _ _ 0) in Ic as (i & Hi & Ei). apply Nc. rewrite <- Ei. rewrite (E i). rewrite pc_nil. reflexivity.
  - exists cs, e. split; [exact He|]. split; [pose proof (hdeg_dlt_lt p cs e (S D) He) as X; enough (e < S D)%nat by lia; apply X; rewrite <- L; apply dlt_len|]. intros k Hk. unfold ev. rewrite <- lc_rw, L. apply Z. exact Hk.
Qed.
Variable V1 : list Z.
Hypothesis HV : hdeg p V1 D.
Hypothesis MV : minimal_polynomial p V1 hs.
Lemma low_zero f : dlt p f D -> annihilates p f hs -> f == [].
Proof.
  intros Df A. destruct (proj2 MV f A) as (c & Ec). destruct (deg_cases p Hp f) as [E|(n & Hn)]; [exact E|]. exfalso. pose proof (hdeg_dlt_lt p _ _ _ Hn Df) as L. rewrite Ec in Hn. destruct (hdeg_factor p Hp _ _ _ Hn) as (i & j & _ & Hj & S). pose proof (hdeg_uniq p _ _ _ Hj HV). lia.
Qed.
Lemma ev_V1 k : (k < D)%nat -> ev V1 k =p 0.
Proof.
  intros Hk. destruct cayley as (Q & e & He & Le & Z). destruct (proj2 MV Q (ev_zero_ann Q Z)) as (c & Ec). pose proof He as He'. rewrite Ec in He'. destruct (hdeg_factor p Hp _ _ _ He') as (i & j & Hc & Hj & Sj). pose proof (hdeg_uniq p _ _ _ Hj HV) as Ej. assert (i = 0)%nat by lia. subst i. 
  assert (C : c == [pc c 0]). { intros [|t]; [reflexivity|]. rewrite pc_consS, pc_nil. apply (hdeg_dlt p _ _ Hc). lia. }
  assert (E : Q == pscal (pc c 0) V1) by (rewrite Ec, C at 1; rewrite pscal_pmul; reflexivity).
  pose proof (Z k Hk) as K. rewrite (ev_peq _ _ k E) in K. unfold ev in K. rewrite apply_pscal in K. destruct (eqp_integral p Hp _ _ K) as [K'|K']; [destruct (proj2 Hc K')|exact K'].
Qed.
Lemma hankel_nonsing : nonsing p d hs.
Proof.
  intros w H j Hj. set (c := map w (seq 0 D)). assert (Lc : length c = D) by (unfold c; rewrite map_length, seq_length; reflexivity). assert (EC : forall i, apply_at c hs i = hmul hs D w i).
  { intros i. rewrite apply_sum, Lc. unfold hmul. apply sumn_ext. intros t Ht. unfold c. rewrite pc_map_seq by exact Ht. ring. }
  assert (Z : forall i, apply_at c hs i =p 0).
  { apply (recurrence_zero p Hp V1 (apply_at c hs) D HV).
    - intros i. rewrite <- apply_pmul. rewrite (apply_peq p (pmul V1 c) (pmul c V1)) by ring. rewrite apply_pmul. rewrite (apply_ext p c _ (fun _ => 0) (proj1 MV) i). rewrite apply_sum, sumn_zero_ext by (intros; ring). reflexivity.
    - intros i Hi. rewrite EC. apply H. exact Hi. }
  assert (E : c == []) by (apply low_zero; [rewrite <- Lc; apply dlt_len|exact Z]). specialize (E j). rewrite pc_nil in E. unfold c in E. rewrite pc_map_seq in E by exact Hj. exact E.
Qed.
Lemma unit_vec k : (k < D)%nat -> exists a, (length a <= D)%nat /\ forall t, (t < D)%nat -> ev a t =p delta t k.
Proof.
  intros Hk. destruct (dependent D ((fun t => delta t k) :: map (fun i => rw i) (seq 0 D))) as (cs & L & (c & Ic & Nc) & Z); [cbn [length]; rewrite map_length, seq_length; lia|]. cbn [length] in L. rewrite map_length, seq_length in L. destruct cs as [|c0 cs]; [discriminate L|]. injection L as L.
  assert (EZ : forall t, (t < D)%nat -> c0 * delta t k + ev cs t =p 0). { intros t Ht. specialize (Z t Ht). cbn [lc] in Z. rewrite <- L, lc_rw in Z. exact Z. }
  destruct (eqp_dec p Hp c0 0) as [E0|E0].
  - exfalso. assert (A : cs == []). { apply low_zero; [rewrite <- L; apply dlt_len|]. apply ev_zero_ann. intros t Ht. rewrite <- (EZ t Ht), E0, Z.mul_0_l, Z.add_0_l. reflexivity. }
    destruct Ic as [<-|Ic]; [contradiction|]. apply (In_nth _ _ 0) in Ic as (i & Hi & Ei). apply Nc. rewrite <- Ei. rewrite (A i). rewrite pc_nil. reflexivity.
  - destruct (zinv_ok p Hp c0 E0) as [I _]. exists (pscal (- zinv p c0) cs). split; [unfold pscal; rewrite map_length; lia|]. intros t Ht. unfold ev. rewrite apply_pscal. fold (ev cs t). transitivity (zinv p c0 * c0 * delta t k); [|rewrite I, Z.mul_1_l; reflexivity].
    assert (X : ev cs t =p - (c0 * delta t k)). { destruct (EZ t Ht) as [q Eq]. exists q. lia. } rewrite X. exists 0. ring.
Qed.
(** the solution of the Hankel system with right-hand side (M^i v)_k is the k-th unit vector *)
Lemma solution_ev k a' : (k < D)%nat -> (length a' <= D)%nat -> (forall i, (i < D)%nat -> hmul hs D (fun j => pc a' j) i =p mpow D M v i k) -> forall t, (t < D)%nat -> ev a' t =p delta t k.
Proof.
  intros Hk La' H t Ht. destruct (unit_vec k Hk) as (a & La & Ea). assert (EA : a' == a).
  { assert (X : forall j, (j < D)%nat -> pc a' j - pc a j =p 0).
    { apply (hankel_nonsing (fun j => pc a' j - pc a j)). intros i Hi. transitivity (hmul hs D (fun j => pc a' j) i - hmul hs D (fun j => pc a j) i).
      - unfold hmul. rewrite (sumn_ext D _ (fun j => hs (i + j)%nat * pc a' j + (-1) * (hs (i + j)%nat * pc a j))) by (intros; ring). rewrite sumn_add, sumn_scal. exists 0. ring.
      - rewrite (H i Hi). assert (K : hmul hs D (fun j => pc a j) i =p mpow D M v i k).
        { transitivity (apply_at a hs i). { rewrite apply_sum. unfold hmul. rewrite (sumn_more (length a) D) by (try lia; intros j Hj; rewrite (pc_over a) by lia; ring). apply sumn_eqp. intros j _. exists 0. ring. }
          rewrite <- ev_apply. rewrite (sumn_eqp p D _ (fun s => mpow D M v i s * delta s k)); [rewrite sum_delta1 by exact Hk; reflexivity|]. intros s Hs. rewrite (Ea s Hs). exists 0. ring. }
        rewrite K. exists 0. ring. }
    intros j. destruct (Nat.lt_ge_cases j D) as [A|A]; [|rewrite !pc_over by lia; reflexivity]. destruct (X j A) as [q Eq]. exists q. lia. }
  rewrite (ev_peq _ _ t EA). apply Ea. exact Ht.
Qed.
End Lin.
