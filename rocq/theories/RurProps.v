(** C75: parametrisations over the rationals: what they say about the solutions, what is computed modulo primes, what is lifted and printed. *)
From Coq Require Import ZArith NArith Arith List Bool Lia Znumtheory Ring_theory Reals Lra.
From Verif Require Import LinSpec MonoSpec MonoModel MonoCmpProofs GbSpec F4Model UpdProps RoundProofs FglmSpec FpSpec FpProofs FglmModel StepSpec StepModel StepProofs StepProps ParamIdeal PointSpec PointProofs QgbSpec QgbProofs QgbProps QparSpec QparModel QparProofs QparRun QparProps RurSpec RurSub RurProofs RurLift RurStep.
From Verif Require Import PolySpec PolyProofs DescModel IsolModel RefineModel BoxModel BoxProofs BoxProps.
Import ListNotations.
Open Scope Z_scope.

Lemma zsorted_len nv lt F : Forall (zsorted nv lt) F -> forall h t, In h F -> In t h -> length (snd t) = nv.
Proof. intros H h t Hh Ht. rewrite Forall_forall in H. destruct (H h Hh) as (_ & A & _). apply (A t Ht). Qed.

(** The solutions of the input in every ring of characteristic zero (the rationals, the reals, the complex numbers) are the points of the parametrisation. *)
Theorem C75_points nv lt F d E cs : (1 <= nv)%nat -> Forall (zsorted nv lt) F -> rational_param nv F d E cs ->
  forall K k0 k1 add mul sub opp, char_zero K k0 k1 add mul sub opp -> forall a, zero_of K k0 k1 add mul opp F a <-> rational_point K k0 k1 add mul opp nv E cs a.
Proof. intros NV HF RP K k0 k1 add mul sub opp CZ a. apply (rational_points K k0 k1 add mul sub opp CZ nv F d E cs a NV (zsorted_len _ _ _ HF) RP). Qed.
Print Assumptions C75_points.

(** All primes but finitely many are good, and the input has an image modulo these. *)
Theorem C75_finite nv lt F d E cs : mono_order nv lt -> (1 <= nv)%nat -> Forall (zsorted nv lt) F -> rational_param nv F d E cs -> exists N, N <> 0 /\ forall p, prime p -> ~ (p | N) ->
  good_prime nv F d E cs p /\ exists Fp, Forall2 (QgbSpec.image nv lt p) F Fp.
Proof.
  intros MO NV HF RP. destruct (RurProofs.finite_bad nv F d E cs NV RP) as (N1 & Z1 & K1). destruct (common (fun p f => ~ (p | lcoef f)) F) as (N2 & Z2 & K2).
  { intros f Hf. exists (lcoef f). split; [|auto]. rewrite Forall_forall in HF. destruct (HF f Hf) as (A & B & _). destruct f as [|t f]; [contradiction|]. apply (B t (or_introl eq_refl)). }
  exists (N1 * N2). split; [intros X; apply Z.mul_eq_0 in X; tauto|]. intros p Pp D. split; [apply K1; [exact Pp|]; intros X; apply D; apply Z.divide_mul_l; exact X|].
  apply images_ex; [exact MO|exact Pp|exact HF|]. apply K2; [exact Pp|]. intros X. apply D. apply Z.divide_mul_r. exact X.
Qed.
Print Assumptions C75_finite.

(** There is at most one, up to constant factors. *)
Theorem C75_unique nv lt F d E cs d' E' cs' : mono_order nv lt -> (1 <= nv)%nat -> Forall (zsorted nv lt) F -> rational_param nv F d E cs -> rational_param nv F d' E' cs' ->
  d = d' /\ (forall i, nth d E' 0 * nth i E 0 = nth d E 0 * nth i E' 0) /\ forall k i, (k < nv - 1)%nat -> rd cs' k * nth i (rc cs k) 0 = rd cs k * nth i (rc cs' k) 0.
Proof.
  intros MO NV HF RP RP'. destruct (C75_finite nv lt F d E cs MO NV HF RP) as (N & NZ & K). destruct (C75_finite nv lt F d' E' cs' MO NV HF RP') as (N' & NZ' & K').
  assert (X : forall x, x <> 0 -> exists p el cp, prime p /\ ~ (p | x) /\ param_image p d E cs el cp /\ param_image p d' E' cs' el cp).
  { intros x Hx. destruct (fresh_prime (N * (N' * x))) as (p & Pp & Dp); [repeat (intros Q; apply Z.mul_eq_0 in Q as [Q|Q]; [contradiction|revert Q]); exact Hx|]. exists p.
    assert (D1 : ~ (p | N)) by (intros Q; apply Dp; apply Z.divide_mul_l; exact Q). assert (D2 : ~ (p | N')) by (intros Q; apply Dp; apply Z.divide_mul_r; apply Z.divide_mul_l; exact Q). assert (D3 : ~ (p | x)) by (intros Q; apply Dp; do 2 apply Z.divide_mul_r; exact Q).
    destruct (K p Pp D1) as (GP & Fp & IM). destruct (K' p Pp D2) as (GP' & _). destruct (image_exists nv F d E cs p NV Pp RP GP) as (el & cp & PI). destruct (image_exists nv F d' E' cs' p NV Pp RP' GP') as (el' & cp' & PI'). exists el, cp. split; [exact Pp|]. split; [exact D3|]. split; [exact PI|].
    destruct (param_unique nv p (pfs Fp) d d' el cp el' cp' NV Pp) as [-> ->]; [exact (img_param _ _ F Fp d E cs _ NV Pp RP GP IM _ _ PI)|exact (img_param _ _ F Fp d' E' cs' _ NV Pp RP' GP' IM _ _ PI')|exact (img_last _ _ F Fp d E cs _ NV Pp RP GP IM _ _ PI)|exact (img_last _ _ F Fp d' E' cs' _ NV Pp RP' GP' IM _ _ PI')|exact PI']. }
  pose proof RP as (_ & LE & _ & _ & LC & _). pose proof RP' as (_ & LE' & _ & _ & LC' & _).
  assert (d = d') as <-. { destruct (X 1 ltac:(lia)) as (p & el & cp & _ & _ & PI & PI'). destruct PI as [A _], PI' as [B _]. lia. }
  assert (EQ : forall x y, (forall p el cp, prime p -> param_image p d E cs el cp -> param_image p d E' cs' el cp -> eqp p x y) -> x = y).
  { intros x y H. destruct (Z.eq_dec (x - y) 0) as [e|n]; [lia|]. destruct (X _ n) as (p & el & cp & Pp & D & PI & PI'). exfalso. apply D. exact (H p el cp Pp PI PI'). }
  assert (CR : forall p a b w x y, eqp p (a * w) x -> eqp p (b * w) y -> eqp p (b * x) (a * y)). { intros p a b w x y [u U] [v V]. exists (- b * u + a * v). nia. }
  split; [reflexivity|]. split.
  - intros i. apply EQ. intros p el cp Pp (_ & _ & _ & A & _) (_ & _ & _ & B & _). exact (CR p _ _ (nth i el 0) _ _ (A i) (B i)).
  - intros k i Hk. apply EQ. intros p el cp Pp (_ & _ & _ & _ & _ & A) (_ & _ & _ & _ & _ & B). destruct (A k) as (_ & _ & A1); [lia|]. destruct (B k) as (_ & _ & B1); [lia|]. exact (CR p _ _ (nth i (nth k cp []) 0) _ _ (A1 i) (B1 i)).
Qed.
Print Assumptions C75_unique.

(** Modulo a good prime the parametrisation has an image, with a squarefree eliminating polynomial, and the computation modulo p never answers that there is no
    solution or that there are infinitely many: when it answers with a parametrisation, this is the image of the one over the rationals. *)
Theorem C75_step o F d E cs p : (1 <= o_nv o)%nat -> Forall (zsorted (o_nv o) (o_lt o)) F -> rational_param (o_nv o) F d E cs -> prime p -> good_prime (o_nv o) F d E cs p ->
  exists el cp, param_image p d E cs el cp /\ squarefree p el /\
  forall c e fuel Fp r, setting c e Fp -> c_o c = o -> c_p c = p -> Forall2 (QgbSpec.image (o_nv o) (o_lt o) p) F Fp -> modular_step c e fuel Fp = F4Model.Ok r ->
    r <> Empty /\ r <> Positive /\ forall elim cs', r = Done (Param elim cs') -> elim = el /\ cs' = cp.
Proof.
  intros NV HF RP Pp GP.
  destruct (image_exists _ F d E cs p NV Pp RP GP) as (el & cp & PI). exists el, cp. split; [exact PI|]. split; [eapply img_squarefree; eassumption|].
  intros c e fuel Fp r ST <- <- IM HR. pose proof (img_param _ _ F Fp d E cs _ NV Pp RP GP IM _ _ PI) as PA. pose proof (img_last _ _ F Fp d E cs _ NV Pp RP GP IM _ _ PI) as GL. pose proof (C60_sound c e fuel Fp r ST HR) as SP.
  assert (D0 : (0 < d)%nat) by apply RP. split; [|split].
  - intros ->. exact (no_unit _ _ _ d el cp NV Pp PA D0 GL SP).
  - intros ->. destruct SP as (_ & k & FV). exact (no_free _ _ _ d el cp NV Pp PA k FV).
  - intros elim cs' ->. destruct SP as (_ & l & _ & P2 & _ & GL2). exact (param_unique _ _ _ _ _ _ _ _ _ NV Pp P2 PA GL2 GL).
Qed.
Print Assumptions C75_step.

(** The image comes from the computation modulo its prime, normalised as the lifting loop stores it *)
Definition from_run (o : ordering) (F : list (list (Z * mono))) (im : QparSpec.image) : Prop := exists c e fuel Fp elim cs, setting c e Fp /\ c_o c = o /\ c_p c = im_p im /\
  Forall2 (QgbSpec.image (o_nv o) (o_lt o) (im_p im)) F Fp /\ modular_step c e fuel Fp = F4Model.Ok (Done (Param elim cs)) /\ im_elim im = elim /\ forall k, (k < o_nv o - 1)%nat -> normalised im k (nth k cs []).
(** The fractions that are lifted exist; all primes but finitely many divide neither their denominators nor the last numerators. *)
Theorem C75_normal nv F d E cs : rational_param nv F d E cs -> exists (B : nat -> Z) (R : nat -> list Z), (forall k, (k < nv - 1)%nat -> normal_coord d E (rc cs k) (rd cs k) (B k) (R k)) /\
  exists N, N <> 0 /\ forall p, prime p -> ~ (p | N) -> forall k, (k < nv - 1)%nat -> ~ (p | B k) /\ ~ (p | last (R k) 1).
Proof.
  intros RP. pose proof RP as (D0 & LE & NE & SE & LC & HE & _).
  destruct (nat_choice (fun k (x : Z * list Z) => normal_coord d E (rc cs k) (rd cs k) (fst x) (snd x)) (1, []) (nv - 1)) as (BR & HBR).
  { intros k Hk. destruct (normal_exists d E (rc cs k) (rd cs k) D0 LE NE) as (B & R & H); [|exists (B, R); exact H]. apply (HE (rc cs k) (rd cs k)). unfold rc, rd. rewrite <- surjective_pairing. apply nth_In. lia. }
  set (B := fun k => fst (BR k)). set (R := fun k => snd (BR k)). assert (HN : forall k, (k < nv - 1)%nat -> normal_coord d E (rc cs k) (rd cs k) (B k) (R k)) by exact HBR. clearbody B R. clear HBR BR. exists B, R. split; [exact HN|].
  destruct (common (fun p k => ~ (p | B k) /\ ~ (p | last (R k) 1)) (seq 0 (nv - 1))) as (N2 & Z2 & K2).
  { intros k Hk. apply in_seq in Hk. destruct (HN k ltac:(lia)) as (A1 & _ & A2 & _). exists (B k * last (R k) 1). split; [intros X; apply Z.mul_eq_0 in X; tauto|]. intros p _ D. split; intros X; apply D; [apply Z.divide_mul_l|apply Z.divide_mul_r]; exact X. }
  exists N2. split; [exact Z2|]. intros p Pp D k Hk. apply (K2 p Pp D). apply in_seq. lia.
Qed.
Print Assumptions C75_normal.
(** What the lifting returns, from the images of good primes, parametrises the solutions of the input over the rationals, as soon as the numerators and denominators are small
    against products of distinct primes used: P (nv - 1) for the eliminating polynomial, P k for coordinate k. *)
Theorem C75_lift o F d E cs B R im0 bs s : (1 <= o_nv o)%nat -> Forall (zsorted (o_nv o) (o_lt o)) F -> rational_param (o_nv o) F d E cs ->
  (forall k, (k < o_nv o - 1)%nat -> normal_coord d E (rc cs k) (rd cs k) (B k) (R k)) -> QparProps.images_ok d (o_nv o - 1) (im0 :: goods bs) ->
  (forall im, In im (im0 :: goods bs) -> good_prime (o_nv o) F d E cs (im_p im) /\ (forall k, (k < o_nv o - 1)%nat -> ~ (im_p im | B k) /\ ~ (im_p im | last (R k) 1)) /\ from_run o F im) -> run bs (init im0) = Some (Finished s) ->
  exists P : nat -> Z, (forall k, (k < o_nv o)%nat -> exists U, incl (im0 :: U) (im0 :: goods bs) /\ NoDup (map im_p (im0 :: U)) /\ P k = fold_right Z.mul 1 (map im_p (im0 :: U))) /\
    ((forall i, (i <= d)%nat -> Z.abs (co (s_elim s) d * nth i E 0 - co (s_elim s) i * nth d E 0) < P (o_nv o - 1)%nat) ->
     (forall k j, (k < o_nv o - 1)%nat -> (j < length (R k))%nat -> Z.abs (nth k (s_cfs s) 1 * (co (s_elim s) d * Z.of_nat d) * nth j (R k) 0 - co (nth k (s_coords s) []) j * B k) < P k) ->
     represents (o_nv o) F d (s_elim s) (combine (s_coords s) (s_cfs s))).
Proof.
  intros NV HF RP HN OK HI HR. set (nv := o_nv o) in *. pose proof RP as (D0 & LE & NE & SE & LC & HE & _).
  set (n := fun k => if (k <? nv - 1)%nat then length (R k) else 0%nat).
  assert (FA : forall im, In im (im0 :: goods bs) -> (forall i, (i <= d)%nat -> (im_p im | nth d E 0 * co (im_elim im) i - nth i E 0)) /\ forall k, im_len k im = n k /\ forall j, (j < n k)%nat -> (im_p im | B k * im_co k j im - nth j (R k) 0)).
  { intros im Him. destruct (HI im Him) as (GP & K3 & c & e & fuel & Fp & elim & cs' & ST & Eo & Ep & IM & MS & EE & HK). destruct OK as (_ & HO & _). destruct (HO im Him) as ((Pp & P1) & L1 & L2 & L3 & L4 & L5).
    destruct (image_exists nv F d E cs (im_p im) NV Pp RP GP) as (el & cp & PI). pose proof (img_param _ _ F Fp d E cs _ NV Pp RP GP IM _ _ PI) as PA. pose proof (img_last _ _ F Fp d E cs _ NV Pp RP GP IM _ _ PI) as GL.
    pose proof (C60_sound c e fuel Fp _ ST MS) as (_ & l & _ & P2 & _ & GL2). rewrite Eo, Ep in P2, GL2. destruct (param_unique _ _ _ _ _ _ _ _ _ NV Pp P2 PA GL2 GL) as [-> ->]. rewrite EE. split; [intros i _; apply PI|].
    intros k. unfold n. destruct (Nat.ltb_spec k (nv - 1)) as [Hk|Hk].
    - specialize (HK k Hk). unfold normalised in HK. rewrite EE in HK. destruct (K3 k Hk) as [K4 K5]. destruct (normal_mod (im_p im) d E cs el cp k (B k) (R k) Pp D0 ltac:(lia) LE K4 K5 ltac:(lia) PI (HN k Hk) _ HK) as [W1 W2].
      assert (LK : (im_len k im <= length (snd (nth k (im_coords im) (0%nat, []))))%nat). { destruct (L5 (nth k (im_coords im) (0%nat, []))) as (A1 & A2 & _); [apply nth_In; lia|]. unfold im_len. lia. }
      rewrite firstn_length, Nat.min_l in W1 by exact LK. split; [exact W1|]. intros j Hj. specialize (W2 j). unfold im_co. unfold eqp in W2. unfold pc in W2 at 2. replace (co (snd (nth k (im_coords im) (0%nat, []))) j) with (pc (firstn (im_len k im) (snd (nth k (im_coords im) (0%nat, [])))) j); [exact W2|].
      unfold pc, co. rewrite <- (firstn_skipn (im_len k im) (snd (nth k (im_coords im) (0%nat, [])))) at 2. rewrite app_nth1; [reflexivity|]. rewrite firstn_length, Nat.min_l by exact LK. lia.
    - split; [unfold im_len; rewrite nth_overflow by lia; reflexivity|]. intros j Hj. lia. }
  destruct (C63_exact d (nv - 1) im0 bs s (fun i => nth i E 0) (fun _ => nth d E 0) (fun k j => nth j (R k) 0) (fun k _ => B k) n OK HR FA) as ((U0 & I0 & N0 & H0) & HC).
  destruct (C63_sound d (nv - 1) im0 bs s OK HR) as (S1 & S2 & S3 & q & S4 & S5 & _ & _ & S6).
  assert (GETA : forall k, (k < nv - 1)%nat -> nth_error (s_coords s) k = Some (nth k (s_coords s) [])) by (intros k Hk; apply nth_error_nth'; lia). assert (GETF : forall k, (k < nv - 1)%nat -> nth_error (s_cfs s) k = Some (nth k (s_cfs s) 1)) by (intros k Hk; apply nth_error_nth'; lia).
  destruct (nat_choice (fun k P => (exists U, incl (im0 :: U) (im0 :: goods bs) /\ NoDup (map im_p (im0 :: U)) /\ P = fold_right Z.mul 1 (map im_p (im0 :: U))) /\
    (k = (nv - 1)%nat -> forall i, (i <= d)%nat -> Z.abs (co (s_elim s) d * nth i E 0 - co (s_elim s) i * nth d E 0) < P -> co (s_elim s) d * nth i E 0 = co (s_elim s) i * nth d E 0) /\
    ((k < nv - 1)%nat -> forall j, (j < length (R k))%nat -> Z.abs (nth k (s_cfs s) 1 * (co (s_elim s) d * Z.of_nat d) * nth j (R k) 0 - co (nth k (s_coords s) []) j * B k) < P -> nth k (s_cfs s) 1 * (co (s_elim s) d * Z.of_nat d) * nth j (R k) 0 = co (nth k (s_coords s) []) j * B k)) 1 nv) as (P & HP).
  { intros k Hk. destruct (Nat.eq_dec k (nv - 1)) as [->|Nk].
    - exists (fold_right Z.mul 1 (map im_p (im0 :: U0))). split; [exists U0; auto|]. split; [intros _; exact H0|lia].
    - destruct (HC k _ _ (GETA k ltac:(lia)) (GETF k ltac:(lia))) as (_ & U & I1 & N3 & H1). exists (fold_right Z.mul 1 (map im_p (im0 :: U))). split; [exists U; auto|]. split; [lia|]. intros Hk2 j Hj. apply H1. unfold n. destruct (Nat.ltb_spec k (nv - 1)); [exact Hj|lia]. }
  exists P. split; [intros k Hk; apply (HP k Hk)|]. intros HB1 HB2.
  assert (LAF : length (combine (s_coords s) (s_cfs s)) = (nv - 1)%nat) by (rewrite combine_length; lia).
  assert (NAF : forall k, (k < nv - 1)%nat -> nth k (combine (s_coords s) (s_cfs s)) ([], 1) = (nth k (s_coords s) [], nth k (s_cfs s) 1)) by (intros k Hk; apply combine_nth; lia).
  apply (represents_intro nv F d E cs); try assumption.
  - exact (zsorted_len _ _ _ HF).
  - intros X. apply S5. unfold co. rewrite X. apply Z.divide_0_r.
  - intros i. change (nth d (s_elim s) 0) with (co (s_elim s) d). unfold pc. destruct (Nat.le_gt_cases i d) as [Hi|Hi]; [|rewrite (nth_overflow E (n := i)), (nth_overflow (s_elim s) (n := i)) by lia; rewrite !Z.mul_0_r; reflexivity]. destruct (HP (nv - 1)%nat ltac:(lia)) as (_ & H1 & _). rewrite (H1 eq_refl i Hi (HB1 i Hi)). unfold co. apply Z.mul_comm.
  - intros A f Hx. apply In_nth_error in Hx as (k & Hk). assert (Hk1 : (k < nv - 1)%nat) by (rewrite <- LAF; apply nth_error_Some; congruence). apply (nth_error_nth _ _ ([], 1)) in Hk. rewrite (NAF k Hk1) in Hk. injection Hk as <- <-. destruct (S6 k _ _ (GETA k Hk1) (GETF k Hk1)) as (X1 & X2 & _). split; assumption.
  - intros k Hk. exists (B k), (R k). split; [exact (HN k Hk)|]. unfold rd, rc. rewrite (NAF k Hk). cbn [fst snd]. intros j. change (nth d (s_elim s) 0) with (co (s_elim s) d). change (pc (nth k (s_coords s) []) j) with (co (nth k (s_coords s) []) j). unfold pc. destruct (Nat.lt_ge_cases j (length (R k))) as [Hj|Hj].
    + destruct (HP k ltac:(lia)) as (_ & _ & H1). apply (H1 Hk j Hj (HB2 k j Hk Hj)).
    + rewrite (nth_overflow (R k) (n := j)) by exact Hj. destruct (HC k _ _ (GETA k Hk) (GETF k Hk)) as (H1 & _). rewrite H1; [ring|]. unfold n. destruct (Nat.ltb_spec k (nv - 1)); lia.
Qed.
Print Assumptions C75_lift.

(** Over the reals: what is written for the output of the lifting encloses the solutions of the input. *)
Section Real.
Open Scope R_scope.
Lemma R_char_zero : char_zero R 0 1 Rplus Rmult Rminus Ropp.
Proof.
  split; [exact RealField.RTheory|]. assert (KP : forall n, kz R 0 1 Rplus Rmult Ropp (Zpos n) = IZR (Zpos n)).
  { intros n. induction n as [|n IH] using Pos.peano_ind; [apply (kz_1 R 0 1 Rplus Rmult Rminus Ropp RealField.RTheory)|]. rewrite Pos2Z.inj_succ. unfold Z.succ. rewrite (kz_add R 0 1 Rplus Rmult Rminus Ropp RealField.RTheory), IH, (kz_1 R 0 1 Rplus Rmult Rminus Ropp RealField.RTheory), plus_IZR. reflexivity. }
  intros n x Nn H. assert (N1 : kz R 0 1 Rplus Rmult Ropp n <> 0).
  { destruct n as [|n|n]; [contradiction|rewrite KP; apply not_0_IZR; discriminate|]. change (Z.neg n) with (- Z.pos n)%Z. intros X. assert (Y : kz R 0 1 Rplus Rmult Ropp (Z.pos n) = 0). { replace (Z.pos n) with (-1 * - Z.pos n)%Z by lia. rewrite (kz_mul R 0 1 Rplus Rmult Rminus Ropp RealField.RTheory), X. ring. } rewrite KP in Y. revert Y. apply not_0_IZR. discriminate. }
  apply Rmult_integral in H as [H|H]; [contradiction|exact H].
Qed.
Lemma kz_IZR n : kz R 0 1 Rplus Rmult Ropp n = IZR n.
Proof.
  assert (KP : forall m : nat, kz R 0 1 Rplus Rmult Ropp (Z.of_nat m) = IZR (Z.of_nat m)).
  { induction m as [|m IH]; [apply (kz_0 R 0 1 Rplus Rmult Rminus Ropp RealField.RTheory)|]. rewrite Nat2Z.inj_succ. unfold Z.succ. rewrite (kz_add R 0 1 Rplus Rmult Rminus Ropp RealField.RTheory), IH, (kz_1 R 0 1 Rplus Rmult Rminus Ropp RealField.RTheory), plus_IZR. reflexivity. }
  destruct (Z.le_gt_cases 0 n) as [H|H]; [rewrite <- (Z2Nat.id n H); apply KP|]. assert (X : kz R 0 1 Rplus Rmult Ropp n + kz R 0 1 Rplus Rmult Ropp (Z.of_nat (Z.to_nat (- n))) = 0). { rewrite <- (kz_add R 0 1 Rplus Rmult Rminus Ropp RealField.RTheory). replace (n + Z.of_nat (Z.to_nat (- n)))%Z with 0%Z by lia. apply (kz_0 R 0 1 Rplus Rmult Rminus Ropp RealField.RTheory). }
  rewrite KP, Z2Nat.id, opp_IZR in X by lia. lra.
Qed.
Lemma uval_zeval x a : uval R 0 1 Rplus Rmult Ropp x a = zeval a x.
Proof. unfold zeval. induction a as [|y a IH]; [reflexivity|]. cbn [uval map peval]. rewrite kz_IZR, IH. reflexivity. Qed.
Lemma pder_from_pderiv l : forall k, pder_from (Z.of_nat k) l = map (fun i => (Z.of_nat i * nth (i - k) l 0)%Z) (seq k (length l)).
Proof.
  induction l as [|x l IH]; intros k; [reflexivity|]. cbn [pder_from length seq map]. f_equal; [rewrite Nat.sub_diag; reflexivity|]. replace (Z.of_nat k + 1)%Z with (Z.of_nat (S k)) by lia. rewrite IH. apply map_ext_in. intros i Hi. apply in_seq in Hi. replace (i - k)%nat with (S (i - S k)) by lia. reflexivity.
Qed.
Lemma pder_pderiv a : pder a = pderiv a.
Proof.
  destruct a as [|x a]; [reflexivity|]. unfold pder, pderiv. change 1%Z with (Z.of_nat 1). rewrite pder_from_pderiv. cbn [length]. rewrite Nat.sub_succ, Nat.sub_0_r. apply map_ext_in. intros i Hi. apply in_seq in Hi. destruct i as [|i]; [lia|]. rewrite Nat.sub_succ, Nat.sub_0_r. reflexivity.
Qed.
End Real.
(** The point with the coordinates of a list *)
Definition pt (x : list R) : nat -> R := fun i => nth i x 0%R.
Definition real_solution (F : list (list (Z * mono))) (x : list R) : Prop := zero_of R 0%R 1%R Rplus Rmult Ropp F (pt x).
(** The parametrisation that is printed, with the derivative of S as denominator. For every parametrisation of the zeroes of F, as lifted, when the isolation of the
    roots ends and no root is an end point of an interval that is not exact: the boxes are computed, one list of boxes for each real solution of F, and a list of boxes
    contains the solution, if the evaluation of the denominator is steady (the condition of C33 and C34). *)
Theorem C75_boxes nv F d S0 AF prec fuel ivs : (1 <= nv)%nat -> represents nv F d S0 AF -> let p := {| elim := S0; denom := pderiv S0; coords := AF |} in
  0 < prec -> real_roots fuel S0 prec = Some ivs ->
  (forall i, In i ivs -> isexact i = false -> zeval S0 (IZR (numer i) * powerRZ 2 (- ik i)) <> 0%R /\ zeval S0 (IZR (numer i + 1) * powerRZ 2 (- ik i)) <> 0%R) ->
  exists N raw pts sols, (forall f1 f2, (N <= f1)%nat -> (N <= f2)%nat -> extract_roots f1 f2 p ivs prec = Some pts) /\ Forall2 (Forall2 same_box) raw pts /\
    (forall x, In x sols <-> length x = nv /\ real_solution F x) /\ NoDup sols /\
    Forall2 (fun x bw => well_evaluated p (fst bw) -> Forall2 encloses (snd bw) x) sols (combine raw pts).
Proof.
  intros NV (D0 & LS & NS & SS & LA & HA & HZ) p Hp HR HI. specialize (HZ R 0%R 1%R Rplus Rmult Rminus Ropp R_char_zero). pose proof R_char_zero as CZ.
  assert (ROOT : forall x, zeval S0 x = 0%R -> zeval (pderiv S0) x <> 0%R).
  { intros x E1 E2. destruct SS as (u & v & s & Ns & HB). assert (X : uval R 0%R 1%R Rplus Rmult Ropp x (padd (FpSpec.pmul u S0) (FpSpec.pmul v (pderiv S0))) = uval R 0%R 1%R Rplus Rmult Ropp x [s]) by (apply (uval_ext R 0%R 1%R Rplus Rmult Rminus Ropp CZ); intros i; apply eqp_zero; apply HB).
    rewrite (uval_padd R 0%R 1%R Rplus Rmult Rminus Ropp CZ), !(uval_pmul R 0%R 1%R Rplus Rmult Rminus Ropp CZ), !uval_zeval, E1, E2 in X. unfold zeval in X. cbn [map peval] in X. apply Ns. apply eq_IZR. lra. }
  assert (SO : shape_ok p).
  { assert (LD : length (pderiv S0) = d) by (unfold pderiv; rewrite map_length, seq_length; lia). split; [|split; [|split]].
    - cbn [p elim]. assert (NN : S0 <> []) by (intros X; rewrite X in LS; discriminate LS). destruct (exists_last NN) as (l & y & Ey). unfold lead_ok. rewrite Ey in *. split; [exact NN|]. rewrite last_last. rewrite app_length in LS. cbn [length] in LS. rewrite app_nth2 in NS by lia. replace (d - length l)%nat with 0%nat in NS by lia. exact NS.
    - cbn [p elim]. lia.
    - cbn [p denom]. intros X. rewrite X in LD. cbn in LD. lia.
    - cbn [p coords elim denom]. intros [A f] Hx. destruct (HA A f Hx) as [H1 H2]. cbn [fst snd]. split; [intros X; rewrite X in H2; cbn in H2; lia|]. split; [exact H1|]. lia. }
  destruct (C34_solutions p prec fuel ivs SO) as (N & raw & pts & H1 & H2 & rs & H3 & H4 & H5); try assumption.
  { intros x Hx. cbn [p elim] in *. rewrite pder_pderiv. apply ROOT. exact Hx. }
  exists N, raw, pts, (map (solution p) rs).
  assert (LEN : forall r, length (solution p r) = nv) by (intros r; unfold solution; rewrite app_length, map_length; cbn [p coords length]; lia).
  assert (LAST : forall r, pt (solution p r) (nv - 1)%nat = r). { intros r. unfold pt, solution. rewrite app_nth2 by (rewrite map_length; cbn [p coords]; lia). rewrite map_length. cbn [p coords]. rewrite LA, Nat.sub_diag. reflexivity. }
  assert (NTH : forall r k, (k < nv - 1)%nat -> pt (solution p r) k = (- zeval (rc AF k) r / (IZR (rd AF k) * zeval (pderiv S0) r))%R).
  { intros r k Hk. unfold pt, solution. cbn [p coords denom]. rewrite app_nth1 by (rewrite map_length; lia). rewrite (nth_indep _ 0%R ((fun vc : list Z * Z => - zeval (fst vc) r / (IZR (snd vc) * zeval (pderiv S0) r))%R ([], 1))) by (rewrite map_length; lia). rewrite (map_nth (fun vc : list Z * Z => (- zeval (fst vc) r / (IZR (snd vc) * zeval (pderiv S0) r))%R)). reflexivity. }
  assert (FP : forall k, (k < nv - 1)%nat -> IZR (rd AF k) <> 0%R). { intros k Hk. apply not_0_IZR. enough (0 < rd AF k) by lia. apply (HA (rc AF k) (rd AF k)). unfold rc, rd. rewrite <- surjective_pairing. apply nth_In. lia. }
  split; [intros f1 f2 F1 F2; apply (H1 f1 f2 F1 F2)|]. split; [exact H2|]. split; [|split].
  - intros x. rewrite in_map_iff. split.
    + intros (r & <- & Hr). split; [apply LEN|]. apply H3 in Hr. cbn [p elim] in Hr. unfold real_solution. apply HZ. unfold lifted_point. cbv zeta. rewrite LAST, uval_zeval. split; [exact Hr|]. intros k Hk. rewrite !uval_zeval, kz_IZR, (NTH r k Hk). field. split; [apply ROOT; exact Hr|apply FP; exact Hk].
    + intros [Lx Sx]. apply HZ in Sx as [S1 S2]. cbv zeta in S1, S2. set (r := pt x (nv - 1)%nat) in *. rewrite uval_zeval in S1. exists r. split; [|apply H3; exact S1]. apply (nth_ext _ _ 0%R 0%R); [rewrite LEN; symmetry; exact Lx|]. intros k Hk. rewrite LEN in Hk. change (pt (solution p r) k = pt x k). destruct (Nat.eq_dec k (nv - 1)) as [->|Nk]; [apply LAST|].
      rewrite (NTH r k) by lia. specialize (S2 k ltac:(lia)). rewrite !uval_zeval, kz_IZR in S2. pose proof (ROOT r S1) as RN. pose proof (FP k ltac:(lia)) as FN. apply (Rmult_eq_reg_l (IZR (rd AF k) * zeval (pderiv S0) r)); [|apply Rmult_integral_contrapositive_currified; assumption]. field_simplify; [lra|split; assumption].
  - clear -H4 LAST. induction H4 as [|r rs Hr H IH]; cbn [map]; constructor; [|exact IH]. intros X. apply in_map_iff in X as (r' & E & Hr'). rewrite Forall_forall in Hr. specialize (Hr r' Hr'). assert (r' = r) by (rewrite <- (LAST r), <- (LAST r'), E; reflexivity). lra.
  - clear -H5. induction H5 as [|r [b w] rs l H _ IH]; cbn [map]; constructor; [exact H|exact IH].
Qed.
Print Assumptions C75_boxes.
