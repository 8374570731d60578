(** The polynomials E(x_n) and e_k x_k + c_k(x_n) generate the ideal over the rationals. *)
From Coq Require Import ZArith NArith Arith List Bool Lia Znumtheory Setoid Morphisms Ring.
From Verif Require Import LinSpec MonoSpec MonoSpecProofs GbSpec GbProofs GbIdeal FpSpec FglmSpec ModInvModel NmodModel FpProofs BmProps FglmModel StairProofs BasisProofs LinTabProofs BmModel BmProofs MatVecProofs HankelProofs ShapeProofs ParamProofs FglmCore StepSpec ParamIdeal F4Rows F4Props QgbSpec QgbProofs QgbExist RurSpec RurProofs RurLift RurStep RexFp RexProofs.
Import ListNotations.
Open Scope Z_scope.
Notation poly := (list (Z * mono)) (only parsing).

Section RG.
Variables (nv : nat) (H : pf -> Prop) (cs : list (list Z * Z)).
Hypothesis NV : (1 <= nv)%nat.
Notation n := (nv - 1)%nat.
Notation I := (ideal nv 0 H).
Notation xk k := (xpow nv k 1).
Notation X := (ParamProofs.X nv).
Lemma rcoord_shift k e c : I (fun m => e * cf [(1, xk k)] m + uni_at nv n c m) -> forall j, I (fun m => e * GbSpec.pmul (xk k) (X j) m + apply_at c (fun i => X i m) j).
Proof.
  intros Ik j. induction j as [|j IH].
  - eapply I_eq; [exact Ik|]. intros m Hm. cbv beta. rewrite (uni_apply nv NV). unfold ParamProofs.X at 1. rewrite (xpow_0 nv), (pmul_mono nv); [|apply (xpow_len nv)|apply mone_length|exact Hm]. replace (mmul (xk k) (mone nv)) with (xk k); [reflexivity|].
    rewrite (mmul_comm (xk k) (mone nv)) by (rewrite (xpow_len nv), mone_length; reflexivity). symmetry. apply (mmul_one_l (xk k) nv). apply (xpow_len nv).
  - eapply I_eq; [apply (ideal_mul nv 0 H (xk n)); [apply (xpow_len nv)|exact IH]|]. intros m Hm. rewrite pmul_add. rewrite <- (apply_X_S nv NV c j m Hm).
    assert (E : GbSpec.pmul (xk n) (fun m => e * GbSpec.pmul (xk k) (X j) m) m = e * GbSpec.pmul (xk k) (X (S j)) m).
    { transitivity (e * GbSpec.pmul (xk n) (GbSpec.pmul (xk k) (X j)) m); [unfold GbSpec.pmul; destruct (mdvdb (xk n) m); ring|]. f_equal.
      transitivity (GbSpec.pmul (mmul (xk n) (xk k)) (X j) m); [apply (pmul_pmul nv); [apply (xpow_len nv)|apply (xpow_len nv)|exact Hm]|]. rewrite (mmul_comm (xk n) (xk k)) by (rewrite !(xpow_len nv); reflexivity).
      unfold ParamProofs.X. assert (L1 : length (mmul (xk k) (xk n)) = nv) by (rewrite mmul_length; rewrite !(xpow_len nv); reflexivity). rewrite !(pmul_mono nv); try assumption; try apply (xpow_len nv). rewrite <- (xpow_S nv NV j). rewrite mmul_assoc by (rewrite !(xpow_len nv); reflexivity). reflexivity. }
    rewrite E. reflexivity.
Qed.
Lemma rcoord_uni k e c g : I (fun m => e * cf [(1, xk k)] m + uni_at nv n c m) -> I (fun m => e * GbSpec.pmul (xk k) (uni_at nv n g) m + uni_at nv n (FpSpec.pmul g c) m).
Proof.
  intros Ik. eapply I_eq; [apply (I_sum nv 0 H NV (length g) (fun j => pc g j) (fun j m => e * GbSpec.pmul (xk k) (X j) m + apply_at c (fun i => X i m) j)); intros j _; apply rcoord_shift; assumption|].
  intros m Hm. cbv beta. rewrite (sumn_ext (length g) _ (fun j => e * (pc g j * GbSpec.pmul (xk k) (X j) m) + pc g j * apply_at c (fun i => X i m) j)) by (intros; ring). rewrite sumn_add.
  rewrite (uni_apply nv NV (FpSpec.pmul g c)), apply_pmul, apply_sum. rewrite sumn_scal. rewrite <- pmul_sumn. rewrite (pmul_ext (xk k) (uni_at nv n g) (fun m => sumn (length g) (fun j => pc g j * X j m)) m) by (intros y; rewrite (uni_apply nv NV), apply_sum; reflexivity). reflexivity.
Qed.
Hypothesis CO : forall k, (k < n)%nat -> rd cs k <> 0 /\ I (fun m => rd cs k * cf [(1, xk k)] m + uni_at nv n (rc cs k) m).
Lemma rmono_uni : forall d m, length m = nv -> (N.to_nat (mdeg m) <= d)%nat -> exists x g, x <> 0 /\ I (fun u => x * cf [(1, m)] u - uni_at nv n g u).
Proof.
  induction d as [|d IH]; intros m Lm Hd.
  - exists 1, [1]. split; [lia|]. assert (m = mone nv) as ->. { apply (mono_ext nv); [exact Lm|apply mone_length|]. intros i _. pose proof (ex_le_mdeg m i). rewrite ex_mone. lia. }
    apply lspan_zero. intros u _. unfold pzero. rewrite (uni_apply nv NV). cbn [apply_at]. unfold ParamProofs.X. rewrite (xpow_0 nv). exists 0. match goal with |- 1 * ?a - (1 * ?b + 0) - 0 = _ => change a with b; ring end.
  - destruct (mono_dec m (mone nv)) as [->|NE]; [apply (IH (mone nv)); [exact Lm|rewrite mdeg_mone; cbn; lia]|].
    assert (EX : exists k, (k < nv)%nat /\ ex m k <> 0%N).
    { destruct (forallb (fun k => (ex m k =? 0)%N) (seq 0 nv)) eqn:E.
      - exfalso. apply NE. apply (mono_ext nv); [exact Lm|apply mone_length|]. intros i Hi. rewrite forallb_forall in E. specialize (E i ltac:(apply in_seq; lia)). apply N.eqb_eq in E. rewrite E, ex_mone. reflexivity.
      - apply forallb_false_ex in E as (k & Hk & E). apply in_seq in Hk. apply N.eqb_neq in E. exists k. split; [lia|exact E]. }
    destruct EX as (k & Hk & Nk). set (m' := mquo m (xk k)). assert (Lx : length (xk k) = nv) by apply (xpow_len nv).
    assert (Dv : mdvd (xk k) m). { intros j. unfold ex at 1, xpow. destruct (Nat.lt_ge_cases j nv) as [Hj|Hj]; [|rewrite nth_overflow by (rewrite map_length, seq_length; exact Hj); lia]. rewrite LinTabProofs.nth_map_seq by exact Hj. destruct (Nat.eqb_spec j k) as [->|]; lia. }
    assert (Em : mmul (xk k) m' = m) by (apply (mul_quo nv); assumption). assert (Lm' : length m' = nv) by (unfold m'; rewrite mquo_length; congruence).
    assert (Dm : mdeg m = (1 + mdeg m')%N) by (rewrite <- Em, mdeg_mmul by congruence; rewrite (mdeg_var nv k Hk); reflexivity).
    destruct (IH m' Lm' ltac:(lia)) as (x & g & Nx & Hg). pose proof (ideal_mul nv 0 H (xk k) _ Lx Hg) as K.
    assert (K' : I (fun u => x * cf [(1, m)] u - GbSpec.pmul (xk k) (uni_at nv n g) u)).
    { eapply I_eq; [exact K|]. intros u Hu. pose proof (pmul_mono nv (xk k) m' u Lx Lm' Hu) as Q. rewrite Em in Q. match goal with |- eqp _ (x * ?a - _) _ => replace a with (GbSpec.pmul (xk k) (cf [(1, m')]) u) end. apply eqp_zero. unfold GbSpec.pmul. destruct (mdvdb (xk k) u); [|ring]. match goal with |- x * ?a - ?b = x * ?a' - ?b' => change a' with a; change b' with b end. ring. }
    destruct (Nat.eq_dec k n) as [->|Nn].
    + exists x, (0 :: g). split; [exact Nx|]. eapply I_eq; [exact K'|]. intros u Hu. cbv beta. rewrite (last_uni nv NV g u Hu). reflexivity.
    + destruct (CO k ltac:(lia)) as [Nr Ir]. exists (rd cs k * x), (pscal (-1) (FpSpec.pmul g (rc cs k))). split; [intros Q; apply Z.mul_eq_0 in Q; lia|].
      eapply I_eq; [apply lspan_add; [apply (lspan_scale nv 0 _ (rd cs k) _ K')|apply (rcoord_uni k (rd cs k) (rc cs k) g Ir)]|]. intros u Hu. cbv beta. rewrite (uni_pscal nv NV). apply eqp_zero. ring.
Qed.
Lemma rpoly_uni (h : poly) : (forall t, In t h -> length (snd t) = nv) -> exists x g, x <> 0 /\ I (fun u => x * cf h u - uni_at nv n g u).
Proof.
  induction h as [|[c m] h IH]; intros Lh.
  - exists 1, []. split; [lia|]. apply lspan_zero. intros u _. unfold pzero. rewrite (uni_apply nv NV). cbn [cf apply_at]. reflexivity.
  - destruct IH as (x & g & Nx & Hg); [intros t Ht; apply Lh; right; exact Ht|]. destruct (rmono_uni _ m (Lh (c, m) (or_introl eq_refl)) (le_n _)) as (y & g1 & Ny & H1). exists (x * y), (padd (pscal (c * x) g1) (pscal y g)). split; [intros Q; apply Z.mul_eq_0 in Q; lia|].
    eapply I_eq; [apply lspan_add; [apply (lspan_scale nv 0 _ (c * x) _ H1)|apply (lspan_scale nv 0 _ y _ Hg)]|]. intros u Hu. cbv beta. rewrite (uni_padd nv NV), !(uni_pscal nv NV). cbn [cf fst snd]. apply eqp_zero. destruct (mono_dec m u); ring.
Qed.
End RG.
Lemma qideal_incl nv (G H : pf -> Prop) : (forall g, G g -> qideal nv H g) -> forall f, qideal nv G f -> qideal nv H f.
Proof.
  intros K f (d & D & Hf). apply (qideal_unscale nv _ d f D). unfold ideal in Hf. induction Hf as [h (u & g & Lu & Hq & ->)| |a g h Hg IHg Hh IHh|g h Hg IHg E].
  - destruct (K g Hq) as (e & E & He). exists e. split; [exact E|]. pose proof (ideal_mul nv 0 H u _ Lu He) as Q. unfold ideal in *. eapply lspan_ext; [exact Q|]. intros m Lm. unfold GbSpec.pmul. destruct (mdvdb u m); ring.
  - apply qideal_of. apply lspan_zero. intros m _. reflexivity.
  - apply (qideal_add nv _ (fun m => a * g m)); [apply qideal_scale; exact IHg|exact IHh].
  - apply (qideal_ext nv _ g); [exact IHg|]. intros m Lm. apply eqp_zero. apply E. exact Lm.
Qed.

(** the parametrisation over the rationals *)
Lemma param_lifts nv lt p F G Gp D elim cp : mono_order nv lt -> prime p -> (1 <= nv)%nat -> Forall (zsorted nv lt) F -> qbasis nv lt F G -> Forall2 (monic_image nv lt p) G Gp -> (forall g, In g G -> ~ (p | lcoef g)) ->
  groebner nv lt p (pfs Gp) -> parametrises nv p (pfs Gp) D elim cp -> generates_last nv p (pfs Gp) elim -> squarefree p elim -> (0 < D)%nat -> Z.of_nat D < p ->
  exists E cs, rational_param nv F D E cs /\ ~ (p | nth D E 0) /\ exists a, FpSpec.peq p E (pscal a elim).
Proof.
  intros MO Pp NV HF (HG & SI & GB & _) IM LC GR PA GL SF D0 Dp.
  destruct (exists_elim nv lt MO p G Gp Pp HG GB IM LC GR D elim cp NV PA GL) as (E & LE & NE & EE & IE).
  destruct (list_choice (fun k (ce : list Z * Z) => snd ce <> 0 /\ (length (fst ce) <= D)%nat /\ qideal nv (pfs G) (fun m => snd ce * cf [(1, xpow nv k 1)] m + uni_at nv (nv - 1) (fst ce) m)) (nv - 1)) as (cs & Lcs & Hcs).
  { intros k Hk. destruct (exists_coord nv lt MO p G Gp Pp HG GB IM LC GR D elim cp NV PA GL k) as (c & e & A & B & C). exists (c, e). cbn [fst snd]. auto. }
  assert (NE0 : nth D E 0 <> 0) by (intros K; apply NE; rewrite K; apply Z.divide_0_r).
  assert (Hk : forall k, (k < nv - 1)%nat -> rd cs k <> 0 /\ qideal nv (pfs G) (fun m => rd cs k * cf [(1, xpow nv k 1)] m + uni_at nv (nv - 1) (rc cs k) m)).
  { intros k Hk. destruct (Hcs k (nth k cs ([], 1))) as (A & _ & C); [apply nth_error_nth'; lia|]. split; [exact A|exact C]. }
  assert (SUB : forall f, qideal nv (rgens nv E cs) f -> qideal nv (pfs G) f). { apply qideal_incl. intros g [->|(k & Lk & ->)]; [exact IE|apply (Hk k Lk)]. }
  exists E, cs. split; [|split; [exact NE|exact EE]]. split; [exact D0|]. split; [exact LE|]. split; [exact NE0|]. split; [apply (separable_of p E D elim); assumption|]. split; [exact Lcs|]. split.
  - intros c e Hce. apply In_nth_error in Hce as (i & Ei). destruct (Hcs i (c, e) Ei) as (A & B & _). split; [exact A|exact B].
  - intros f. rewrite SI. split; [|apply SUB]. intros Hf. apply SI in Hf. revert f Hf. apply qideal_incl. intros f (h & Hh & ->).
    assert (Lh : forall t, In t h -> length (snd t) = nv) by (intros t Ht; rewrite Forall_forall in HF; apply (proj1 (proj2 (HF h Hh)) t Ht)).
    destruct (rpoly_uni nv (rgens nv E cs) cs NV) with (h := h) as (x & g & Nx & Hg); [intros k Lk; split; [apply (Hk k Lk)|apply ideal_gen; right; exists k; split; [exact Lk|reflexivity]]|exact Lh|].
    destruct (pseudo_div E D D0 LE NE0 g) as (M & q & r & NM & Lr & Hr).
    assert (Ig : qideal nv (pfs G) (uni_at nv (nv - 1) g)).
    { apply (qideal_ext nv _ (fun m => x * cf h m - 1 * (x * cf h m - uni_at nv (nv - 1) g m))); [|intros m _; ring]. apply (qideal_lin nv _ x 1); [apply SI; apply qideal_self; exact Hh|apply SUB; apply qideal_of; exact Hg]. }
    assert (QE : qideal nv (rgens nv E cs) (uni_at nv (nv - 1) (FpSpec.pmul q E))) by (apply qideal_of; apply (uni_mul nv 0 _ NV); apply ideal_gen; left; reflexivity).
    assert (UE : forall m, M * uni_at nv (nv - 1) g m = uni_at nv (nv - 1) (FpSpec.pmul q E) m + uni_at nv (nv - 1) r m).
    { intros m. rewrite <- (uni_pscal nv NV), <- (uni_padd nv NV). apply eqp_zero. apply (uni_peq nv 0 NV). intros i. rewrite pc_pscal, pc_padd, Hr. reflexivity. }
    assert (R0 : forall i, nth i r 0 = 0).
    { apply (qindep nv lt MO p G Gp Pp HG GB IM LC D elim cp NV PA GL r Lr). apply (qideal_ext nv _ (fun m => M * uni_at nv (nv - 1) g m - 1 * uni_at nv (nv - 1) (FpSpec.pmul q E) m)); [|intros m _; rewrite UE; ring]. apply qideal_lin; [exact Ig|apply SUB; exact QE]. }
    assert (Ur : forall m, uni_at nv (nv - 1) r m = 0). { intros m. apply eqp_zero. replace 0 with (uni_at nv (nv - 1) [] m) by (rewrite (uni_apply nv NV); reflexivity). apply (uni_peq nv 0 NV). intros i. rewrite pc_nil. unfold pc. rewrite R0. reflexivity. }
    apply (qideal_unscale nv _ (M * x)); [intros Q; apply Z.mul_eq_0 in Q; lia|]. apply (qideal_ext nv _ (fun m => M * (x * cf h m - uni_at nv (nv - 1) g m) + uni_at nv (nv - 1) (FpSpec.pmul q E) m)); [|intros m _; assert (Q := UE m); rewrite Ur in Q; rewrite Z.mul_sub_distr_l; rewrite Q; ring].
    apply qideal_add; [apply qideal_scale; apply qideal_of; exact Hg|exact QE].
Qed.
