(** C76: what the computation modulo one prime says about the system over the rationals. *)
From Coq Require Import ZArith NArith Arith List Bool Lia Znumtheory Ring_theory.
From Verif Require Import LinSpec MonoSpec MonoModel MonoSpecProofs MonoCmpProofs GbSpec GbProofs GbIdeal F4Model F4Rows RoundProofs F4Props FglmSpec FpSpec FpProofs FglmModel ParamProofs FglmCore StepSpec StepModel StepProofs StepProps ParamIdeal PointSpec PointProofs QgbSpec QgbProofs QgbExist QgbProps.
From Verif Require Import RurSpec RurProofs RurLift RurStep RurProps RexFp RexProofs RexGen.
Import ListNotations.
Open Scope Z_scope.
Notation poly := (list (Z * mono)) (only parsing).

(** The good primes: those of C71, and the leading coefficients of the basis over the rationals are not divisible by p. *)
Definition good_reduction (nv : nat) (lt : mono -> mono -> Prop) (F G : list poly) (p : Z) : Prop := lucky nv lt F G p /\ forall g, In g G -> ~ (p | lcoef g).
(** over the rationals: the constants are in the ideal; no polynomial in x_k alone is, except zero *)
Definition qunit (nv : nat) (F : list poly) : Prop := qideal nv (pfs F) (cf [(1, mone nv)]).
Definition qfree (nv : nat) (F : list poly) (k : nat) : Prop := (k < nv)%nat /\ forall Q, qideal nv (pfs F) (uni_at nv k Q) -> forall i, nth i Q 0 = 0.

Theorem C76_finite nv lt F G : mono_order nv lt -> Forall (zsorted nv lt) F -> qbasis nv lt F G -> exists N, N <> 0 /\ forall p, prime p -> ~ (p | N) -> good_reduction nv lt F G p.
Proof.
  intros MO HF QB. destruct (C71_finite nv lt F G MO HF QB) as (N & NZ & H). destruct (common (fun p g => ~ (p | lcoef g)) G) as (N1 & Z1 & K1).
  { intros g Hg. exists (lcoef g). destruct QB as (HG & _). rewrite Forall_forall in HG. destruct (z_len nv lt g (HG g Hg)) as (_ & Q & _). split; auto. }
  exists (N * N1). split; [intros K; apply Z.mul_eq_0 in K; lia|]. intros p Pp Dp. split; [apply H; [exact Pp|intros K; apply Dp; apply Z.divide_mul_l; exact K]|apply (K1 p Pp); intros K; apply Dp; apply Z.divide_mul_r; exact K].
Qed.
Print Assumptions C76_finite.

Lemma q_to_p nv lt p F G Gp f : mono_order nv lt -> prime p -> qbasis nv lt F G -> Forall2 (monic_image nv lt p) G Gp -> (forall g, In g G -> ~ (p | lcoef g)) -> fin nv f -> qideal nv (pfs F) f -> ideal nv p (pfs Gp) f.
Proof. intros MO Pp (HG & SI & GB & _) IM LC Ff Hf. apply (mod_of_q nv lt MO p G Gp Pp HG GB IM LC f Ff). apply SI. exact Hf. Qed.
Lemma p_unit_q nv lt p F G Gp : mono_order nv lt -> prime p -> qbasis nv lt F G -> Forall2 (monic_image nv lt p) G Gp -> groebner nv lt p (pfs Gp) -> unit_ideal nv p (pfs Gp) -> qunit nv F.
Proof.
  intros MO Pp (HG & SI & GB & _) IM GR U. apply SI. assert (Lo : length (mone nv) = nv) by apply mone_length.
  assert (HL : forall q, 1 < q \/ q = 0 -> is_lead nv lt q (cf [(1, mone nv)]) (mone nv)).
  { intros q Hq. split; [exact Lo|]. split; [change (~ eqp q (single 1 (mone nv) (mone nv)) 0); rewrite single_at; intros [z K]; destruct Hq as [Hq| ->]; [assert (z <= 0 \/ 1 <= z) as [?|?] by lia; nia|lia]|]. intros m' _ Hm'. change (eqp q (single 1 (mone nv) m') 0). rewrite single_out; [reflexivity|]. intros ->. exact (lt_irr nv lt MO _ Hm'). }
  destruct (GR _ _ U (HL p (or_introl (let (A, _) := Pp in A)))) as (g' & l & (f & Hf & ->) & Il & Dv). destruct (im_bwd nv lt p G Gp IM f Hf) as (g & Hg & M).
  assert (IL2 : is_lead nv lt p (cf f) (lead g)).
  { destruct M as (SP & (r & Er) & _). destruct f as [|t f]; [discriminate Er|]. injection Er as -> ->. pose proof SP as (_ & Q & _). destruct (Q _ (or_introl eq_refl)) as [Q1 Q2]. cbn [fst snd] in *. split; [exact Q2|]. pose proof (sp_cf nv lt p MO _ (1, lead g) SP (or_introl eq_refl)) as W. cbn [fst snd] in W. rewrite W. split; [intros [z Kz]; assert (z <= 0 \/ 1 <= z) as [?|?] by lia; nia|].
    intros m' Lm' Hm'. rewrite (sp_above nv lt p MO _ _ m' SP Hm' Lm'). reflexivity. }
  pose proof (lead_unique nv lt p MO _ _ _ Il IL2) as ->.
  destruct (full_rem nv lt MO G HG (mone nv) Lo _ (fin_cf nv [(1, mone nv)] ltac:(intros t [<-|[]]; exact Lo)) (HL 0 (or_intror eq_refl))) as (d & r & Nd & Id & Sr & Q). exists d. split; [exact Nd|].
  assert (r = []) as ->. { destruct r as [|s r]; [reflexivity|exfalso]. destruct (Q s (or_introl eq_refl)) as [_ Q2]. apply (Q2 g Hg). intros i. specialize (Dv i). rewrite ex_mone in Dv. lia. }
  eapply I_eq; [exact Id|]. intros m _. cbn [cf]. apply eqp_zero. ring.
Qed.

(** Every answer modulo a good prime holds over the rationals: no solution when there is none modulo p, and only then; infinitely many when there are infinitely many modulo p;
    and a parametrisation modulo p of degree below p is the image of the eliminating polynomial of a parametrisation over the rationals, of the same degree. *)
Theorem C76_answers o F G p : (1 <= o_nv o)%nat -> Forall (zsorted (o_nv o) (o_lt o)) F -> qbasis (o_nv o) (o_lt o) F G -> prime p -> good_reduction (o_nv o) (o_lt o) F G p ->
  forall c e fuel Fp r, setting c e Fp -> c_o c = o -> c_p c = p -> Forall2 (QgbSpec.image (o_nv o) (o_lt o) p) F Fp -> modular_step c e fuel Fp = F4Model.Ok r ->
    (r = Empty <-> qunit (o_nv o) F) /\ (r = Positive -> exists k, qfree (o_nv o) F k) /\
    forall elim cp, r = Done (Param elim cp) -> Z.of_nat (length elim) <= p ->
      exists E cs, rational_param (o_nv o) F (length elim - 1) E cs /\ ~ (p | nth (length elim - 1) E 0) /\ exists a, FpSpec.peq p E (pscal a elim).
Proof.
  intros NV HF QB Pp [[L1 L2] LC] c e fuel Fp r ST <- <- IF HR. pose proof (o_lt_order (c_o c)) as MO. destruct (L2 Fp IF) as (Gp & IM & A1 & A2 & _).
  pose proof (C60_sound c e fuel Fp r ST HR) as SP. apply (step_spec_same _ _ (pfs Gp)) in SP; [|intros f; symmetry; apply A1].
  assert (UU : qunit (o_nv (c_o c)) F <-> unit_ideal (o_nv (c_o c)) (c_p c) (pfs Gp)).
  { split; [intros U; apply (q_to_p _ _ _ F G Gp _ MO Pp QB IM LC); [apply fin_cf; intros t [<-|[]]; apply mone_length|exact U]|apply (p_unit_q _ _ _ F G Gp MO Pp QB IM A2)]. }
  split; [|split].
  - rewrite UU. split; [intros ->; exact SP|]. intros U. destruct r as [| | |r]; [reflexivity| | |]; exfalso; apply SP; exact U.
  - intros ->. destruct SP as (_ & k & Hk & FV). exists k. split; [exact Hk|]. intros Q HQ.
    assert (K : (forall x, In x Q -> x = 0) \/ exists x, In x Q /\ x <> 0).
    { clear. induction Q as [|a Q IH]; [left; intros x []|]. destruct (Z.eq_dec a 0) as [E|E]; [|right; exists a; split; [left; reflexivity|exact E]]. destruct IH as [A|(x & A & B)]; [left; intros x [<-|I0]; auto|right; exists x; split; [right; exact A|exact B]]. }
    destruct K as [Z0|NZ]; [intros i; destruct (Nat.lt_ge_cases i (length Q)) as [Hi|Hi]; [apply Z0; apply nth_In; exact Hi|apply nth_overflow; exact Hi]|exfalso].
    destruct (primitive (c_p c) Q ltac:(destruct Pp; assumption) NZ) as (t & Q' & Nt & -> & (y & Hy & Ny)).
    assert (HQ' : qideal (o_nv (c_o c)) (pfs F) (uni_at (o_nv (c_o c)) k Q')) by (apply (qideal_unscale _ _ t _ Nt); eapply qideal_ext; [exact HQ|]; intros m _; apply uni_scale).
    pose proof (FV Q' (q_to_p _ _ _ F G Gp _ MO Pp QB IM LC (fin_uni _ k Q') HQ')) as V. apply (In_nth _ _ 0) in Hy as (i & _ & <-). apply Ny. destruct (V i) as [z Hz]. exists z. lia.
  - intros elim cp -> Hlen. destruct SP as (NU & l & _ & PA & SF & GL). assert (LE : length elim = S (length l)) by apply PA. rewrite LE in *. replace (S (length l) - 1)%nat with (length l) by lia.
    apply (param_lifts _ _ (c_p c) F G Gp (length l) elim cp MO Pp NV HF QB IM LC A2 PA GL SF); [|lia].
    destruct l as [|? ?]; [exfalso|cbn; lia]. apply NU. destruct PA as (P1 & P2 & _ & P4 & _). destruct elim as [|a [|? ?]]; try discriminate P1. cbn in P2. subst a. eapply I_eq; [exact P4|]. intros m _. unfold uni_at. cbn [length seq map cf fst snd nth]. rewrite (xpow_0 (o_nv (c_o c))). reflexivity.
Qed.
Print Assumptions C76_answers.

(** Without solutions: no common zero in any ring of characteristic zero other than the zero ring. *)
Theorem C76_empty nv F : (forall h t, In h F -> In t h -> length (snd t) = nv) -> qunit nv F ->
  forall K k0 k1 add mul sub opp, char_zero K k0 k1 add mul sub opp -> k0 <> k1 -> forall a, ~ zero_of K k0 k1 add mul opp F a.
Proof.
  intros LF U K k0 k1 add mul sub opp CZ N1 a HZ. assert (RK := proj1 CZ). assert (R0 := kz_0 K k0 k1 add mul sub opp RK).
  assert (L1 : forall t : Z * mono, In t [(1, mone nv)] -> length (snd t) = nv) by (intros t [<-|[]]; apply mone_length).
  pose proof (q_zero K k0 k1 add mul sub opp CZ nv a (pfs F) [(1, mone nv)] (proj2 (list_zero K k0 k1 add mul sub opp 0 RK R0 nv F a LF) HZ) L1 U) as V.
  apply (zero_at_val K k0 k1 add mul sub opp 0 RK R0 nv a _ L1) in V. apply N1. rewrite <- V. cbn [PointSpec.pval fst snd]. rewrite (kz_1 K k0 k1 add mul sub opp RK), (mval_ones K k0 k1 add mul sub opp RK); [|intros e He; apply repeat_spec in He; exact He]. destruct RK. rewrite Rmul_1_l, Radd_comm, Radd_0_l. reflexivity.
Qed.
Print Assumptions C76_empty.

(** Modulo all but finitely many primes the answers agree with one parametrisation modulo one good prime. *)
Theorem C76_one_prime o F G p c e fuel Fp elim cp : (1 <= o_nv o)%nat -> Forall (zsorted (o_nv o) (o_lt o)) F -> qbasis (o_nv o) (o_lt o) F G -> prime p -> good_reduction (o_nv o) (o_lt o) F G p ->
  setting c e Fp -> c_o c = o -> c_p c = p -> Forall2 (QgbSpec.image (o_nv o) (o_lt o) p) F Fp -> modular_step c e fuel Fp = F4Model.Ok (Done (Param elim cp)) -> Z.of_nat (length elim) <= p ->
  exists d E cs, rational_param (o_nv o) F d E cs /\ length elim = S d /\ exists N, N <> 0 /\ forall q, prime q -> ~ (q | N) ->
    forall c' e' fuel' Fq r, setting c' e' Fq -> c_o c' = o -> c_p c' = q -> Forall2 (QgbSpec.image (o_nv o) (o_lt o) q) F Fq -> modular_step c' e' fuel' Fq = F4Model.Ok r ->
      r <> Empty /\ r <> Positive /\ forall elim' cp', r = Done (Param elim' cp') -> param_image q d E cs elim' cp'.
Proof.
  intros NV HF QB Pp GR ST Eo Ep IF HR Hlen. destruct (C76_answers o F G p NV HF QB Pp GR c e fuel Fp _ ST Eo Ep IF HR) as (_ & _ & H). destruct (H elim cp eq_refl Hlen) as (E & cs & RP & _ & a & EA).
  exists (length elim - 1)%nat, E, cs. split; [exact RP|].
  assert (PL : length elim = S (length elim - 1)). { subst o p. destruct (C60_sound c e fuel Fp _ ST HR) as (_ & l & _ & PA & _). assert (length elim = S (length l)) by apply PA. lia. }
  split; [exact PL|]. destruct (RurProofs.finite_bad (o_nv o) F _ E cs NV RP) as (N & NZ & HN). exists N. split; [exact NZ|]. intros q Pq Dq c' e' fuel' Fq r ST' Eo' Eq IQ HR'.
  destruct (C75_step o F _ E cs q NV HF RP Pq (HN q Pq Dq)) as (el & cq & PI & _ & K). destruct (K c' e' fuel' Fq r ST' Eo' Eq IQ HR') as (K1 & K2 & K3). split; [exact K1|]. split; [exact K2|]. intros elim' cp' Er. destruct (K3 elim' cp' Er) as [-> ->]. exact PI.
Qed.
Print Assumptions C76_one_prime.
