(** A parametrisation whose elimination polynomial generates the polynomials in the last variable generates the ideal; it is unique. *)
From Coq Require Import ZArith NArith Arith List Bool Lia Znumtheory Setoid Morphisms Ring.
From Verif Require Import LinSpec MonoSpec MonoSpecProofs GbSpec GbProofs GbIdeal StairProofs BasisProofs LinTabProofs.
From Verif Require Import FpSpec FglmSpec ModInvModel NmodModel FpProofs BmModel BmProofs BmProps FglmModel MatVecProofs HankelProofs ShapeProofs ParamProofs FglmCore FglmProps StepSpec.
Import ListNotations.
Open Scope Z_scope.

Lemma forallb_false_ex {A} (f : A -> bool) l : forallb f l = false -> exists x, In x l /\ f x = false.
Proof.
  induction l as [|a l IH]; [discriminate|]. cbn [forallb]. destruct (f a) eqn:E; [|intros _; exists a; split; [left; reflexivity|exact E]]. intros H. destruct (IH H) as (x & Hx & Ex). exists x. split; [right; exact Hx|exact Ex].
Qed.
Section PI.
Variables (nv : nat) (p : Z) (H : pf -> Prop) (cs : list (list Z)).
Hypothesis NV : (1 <= nv)%nat.
Notation n := (nv - 1)%nat.
Notation I := (ideal nv p H).
Notation "a =p b" := (eqp p a b) (at level 70).
Notation xk k := (xpow nv k 1).
Notation X := (X nv).
Lemma pmul_ext u (f g : pf) m : (forall x, f x = g x) -> GbSpec.pmul u f m = GbSpec.pmul u g m.
Proof. intros E. unfold GbSpec.pmul. rewrite E. reflexivity. Qed.
Lemma pmul_add u (f g : pf) m : GbSpec.pmul u (fun x => f x + g x) m = GbSpec.pmul u f m + GbSpec.pmul u g m.
Proof. unfold GbSpec.pmul. destruct (mdvdb u m); ring. Qed.
Lemma pmul_mono u v m : length u = nv -> length v = nv -> length m = nv -> GbSpec.pmul u (cf [(1, v)]) m = cf [(1, mmul u v)] m.
Proof. intros Lu Lv Lm. rewrite <- (cf_shift nv u [(1, v)] m Lu); [reflexivity| |exact Lm]. intros t [<-|[]]. exact Lv. Qed.
Lemma coord_shift k c : (k < n)%nat -> I (coord_poly nv k n c) -> forall j, I (fun m => GbSpec.pmul (xk k) (X j) m + apply_at c (fun i => X i m) j).
Proof.
  intros Hk Ik j. induction j as [|j IH].
  - eapply I_eq; [exact Ik|]. intros m Hm. unfold coord_poly. rewrite (uni_apply nv NV). unfold ParamProofs.X at 1. rewrite (xpow_0 nv), pmul_mono; [|apply (xpow_len nv)|apply mone_length|exact Hm]. replace (mmul (xk k) (mone nv)) with (xk k); [reflexivity|].
    rewrite (mmul_comm (xk k) (mone nv)) by (rewrite (xpow_len nv), mone_length; reflexivity). symmetry. apply (mmul_one_l (xk k) nv). apply (xpow_len nv).
  - eapply I_eq; [apply (ideal_mul nv p H (xk n)); [apply (xpow_len nv)|exact IH]|]. intros m Hm. rewrite pmul_add. rewrite <- (apply_X_S nv NV c j m Hm).
    assert (E : GbSpec.pmul (xk n) (GbSpec.pmul (xk k) (X j)) m = GbSpec.pmul (xk k) (X (S j)) m); [|unfold GbSpec.pmul in E |- *; rewrite E; reflexivity].
    transitivity (GbSpec.pmul (mmul (xk n) (xk k)) (X j) m); [apply (pmul_pmul nv); [apply (xpow_len nv)|apply (xpow_len nv)|exact Hm]|]. rewrite (mmul_comm (xk n) (xk k)) by (rewrite !(xpow_len nv); reflexivity).
    unfold ParamProofs.X. assert (L1 : length (mmul (xk k) (xk n)) = nv) by (rewrite mmul_length; rewrite !(xpow_len nv); reflexivity). rewrite !pmul_mono; try assumption; try apply (xpow_len nv). rewrite <- (xpow_S nv NV j). rewrite mmul_assoc by (rewrite !(xpow_len nv); reflexivity). reflexivity.
Qed.
(** x_k g(x_n) = - (g c_k)(x_n) modulo the ideal *)
Lemma coord_uni k c g : (k < n)%nat -> I (coord_poly nv k n c) -> I (fun m => GbSpec.pmul (xk k) (uni_at nv n g) m + uni_at nv n (pmul g c) m).
Proof.
  intros Hk Ik. eapply I_eq; [apply (I_sum nv p H NV (length g) (fun j => pc g j) (fun j m => GbSpec.pmul (xk k) (X j) m + apply_at c (fun i => X i m) j)); intros j _; apply coord_shift; assumption|].
  intros m Hm. cbv beta. rewrite (sumn_ext (length g) _ (fun j => pc g j * GbSpec.pmul (xk k) (X j) m + pc g j * apply_at c (fun i => X i m) j)) by (intros; ring). rewrite sumn_add.
  rewrite (uni_apply nv NV (pmul g c)), apply_pmul, apply_sum. rewrite <- pmul_sumn. rewrite (pmul_ext (xk k) (uni_at nv n g) (fun m => sumn (length g) (fun j => pc g j * X j m)) m) by (intros y; rewrite (uni_apply nv NV), apply_sum; reflexivity). reflexivity.
Qed.
Lemma last_uni g m : length m = nv -> GbSpec.pmul (xk n) (uni_at nv n g) m = uni_at nv n (0 :: g) m.
Proof.
  intros Hm. rewrite (uni_apply nv NV (0 :: g)). cbn [apply_at]. rewrite (apply_X_S nv NV g 0 m Hm). rewrite Z.mul_0_l, Z.add_0_l. apply pmul_ext. intros y. apply (uni_apply nv NV).
Qed.
Hypothesis CO : forall k, (k < n)%nat -> I (coord_poly nv k n (nth k cs [])).
(** every monomial is a polynomial in x_n modulo the ideal *)
Lemma mono_uni : forall d m, length m = nv -> (N.to_nat (mdeg m) <= d)%nat -> exists g, I (fun u => cf [(1, m)] u - uni_at nv n g u).
Proof.
  induction d as [|d IH]; intros m Lm Hd.
  - exists [1]. assert (m = mone nv) as ->. { apply (mono_ext nv); [exact Lm|apply mone_length|]. intros i _. pose proof (ex_le_mdeg m i). rewrite ex_mone. lia. }
    apply lspan_zero. intros u _. unfold pzero. rewrite (uni_apply nv NV). cbn [apply_at]. unfold ParamProofs.X. rewrite (xpow_0 nv). exists 0. match goal with |- ?a - (1 * ?b + 0) - 0 = _ => change a with b; ring end.
  - destruct (mono_dec m (mone nv)) as [->|NE]; [apply (IH (mone nv)); [exact Lm|rewrite mdeg_mone; cbn; lia]|].
    assert (EX : exists k, (k < nv)%nat /\ ex m k <> 0%N).
    { destruct (forallb (fun k => (ex m k =? 0)%N) (seq 0 nv)) eqn:E.
      - exfalso. apply NE. apply (mono_ext nv); [exact Lm|apply mone_length|]. intros i Hi. rewrite forallb_forall in E. specialize (E i ltac:(apply in_seq; lia)). apply N.eqb_eq in E. rewrite E, ex_mone. reflexivity.
      - apply forallb_false_ex in E as (k & Hk & E). apply in_seq in Hk. apply N.eqb_neq in E. exists k. split; [lia|exact E]. }
    destruct EX as (k & Hk & Nk). set (m' := mquo m (xk k)). assert (Lx : length (xk k) = nv) by apply (xpow_len nv).
    assert (Dv : mdvd (xk k) m). { intros j. unfold ex at 1, xpow. destruct (Nat.lt_ge_cases j nv) as [Hj|Hj]; [|rewrite nth_overflow by (rewrite map_length, seq_length; exact Hj); lia]. rewrite LinTabProofs.nth_map_seq by exact Hj. destruct (Nat.eqb_spec j k) as [->|]; lia. }
    assert (Em : mmul (xk k) m' = m) by (apply (mul_quo nv); assumption). assert (Lm' : length m' = nv) by (unfold m'; rewrite mquo_length; congruence).
    assert (Dm : mdeg m = (1 + mdeg m')%N) by (rewrite <- Em, mdeg_mmul by congruence; rewrite (mdeg_var nv k Hk); reflexivity).
    destruct (IH m' Lm' ltac:(lia)) as (g & Hg). pose proof (ideal_mul nv p H (xk k) _ Lx Hg) as K.
    assert (K' : I (fun u => cf [(1, m)] u - GbSpec.pmul (xk k) (uni_at nv n g) u)).
    { eapply I_eq; [exact K|]. intros u Hu. rewrite pmul_sub, pmul_mono by assumption. rewrite Em. reflexivity. }
    destruct (Nat.eq_dec k n) as [->|Nn].
    + exists (0 :: g). eapply I_eq; [exact K'|]. intros u Hu. cbv beta. rewrite (last_uni g u Hu). reflexivity.
    + exists (pscal (-1) (pmul g (nth k cs []))). eapply I_eq; [apply lspan_add; [exact K'|apply (coord_uni k (nth k cs []) g); [lia|apply CO; lia]]|]. intros u Hu. cbv beta. rewrite (uni_pscal nv NV). exists 0. ring.
Qed.
Lemma poly_uni (h : list (Z * mono)) : (forall t, In t h -> length (snd t) = nv) -> exists g, I (fun u => cf h u - uni_at nv n g u).
Proof.
  induction h as [|[c m] h IH]; intros Lh.
  - exists []. apply lspan_zero. intros u _. unfold pzero. rewrite (uni_apply nv NV). cbn [cf apply_at]. reflexivity.
  - destruct IH as (g & Hg); [intros t Ht; apply Lh; right; exact Ht|]. destruct (mono_uni _ m (Lh (c, m) (or_introl eq_refl)) (le_n _)) as (g1 & H1). exists (padd (pscal c g1) g).
    eapply I_eq; [apply lspan_add; [apply (lspan_scale nv p _ c _ H1)|exact Hg]|]. intros u Hu. cbv beta. rewrite (uni_padd nv NV), (uni_pscal nv NV). cbn [cf fst snd]. exists 0. destruct (mono_dec m u); ring.
Qed.
Lemma ideal_uni (F : list (list (Z * mono))) f : (forall h t, In h F -> In t h -> length (snd t) = nv) -> ideal nv p (pfs F) f -> exists g, I (fun u => f u - uni_at nv n g u).
Proof.
  intros LF. induction 1 as [f (u & g & Lu & (h & Hh & ->) & ->)| |a f g Hf (g1 & H1) Hg (g2 & H2)|f g Hf (g1 & H1) E].
  - destruct (poly_uni (shift u h)) as (g & Hg).
    { intros t Ht. apply in_map_iff in Ht as (t' & <- & Ht'). cbn [snd]. rewrite mmul_length; [exact Lu|]. rewrite (LF h t' Hh Ht'). exact Lu. }
    exists g. eapply I_eq; [exact Hg|]. intros x Hx. cbv beta. rewrite (cf_shift nv u h x Lu); [reflexivity|intros t Ht; apply (LF h t Hh Ht)|exact Hx].
  - exists []. apply lspan_zero. intros u _. unfold pzero. rewrite (uni_apply nv NV). cbn [apply_at]. reflexivity.
  - exists (padd (pscal a g1) g2). eapply I_eq; [apply lspan_add; [apply (lspan_scale nv p _ a _ H1)|exact H2]|]. intros u Hu. cbv beta. rewrite (uni_padd nv NV), (uni_pscal nv NV). exists 0. ring.
  - exists g1. eapply I_eq; [exact H1|]. intros u Hu. cbv beta. specialize (E u Hu). destruct E as [z E]. exists (- z). lia.
Qed.
End PI.

Lemma param_same nv p (F : list (list (Z * mono))) D elim cs : (1 <= nv)%nat -> (forall h t, In h F -> In t h -> length (snd t) = nv) ->
  parametrises nv p (pfs F) D elim cs -> generates_last nv p (pfs F) elim -> same_ideal nv p (pfs F) (param_gens nv elim cs).
Proof.
  intros NV LF P GL. assert (Sub : forall f, ideal nv p (param_gens nv elim cs) f -> ideal nv p (pfs F) f).
  { apply ideal_incl. intros f [->|(k & Hk & ->)]; [apply P|apply P; exact Hk]. }
  intros f. split; [|apply Sub]. intros Hf.
  destruct (ideal_uni nv p (param_gens nv elim cs) cs NV) with (F := F) (f := f) as (g & Hg); [|exact LF|exact Hf|].
  { intros k Hk. apply ideal_gen. right. exists k. split; [exact Hk|reflexivity]. }
  assert (Ig : ideal nv p (pfs F) (uni_at nv (nv - 1) g)). { eapply I_eq; [apply lspan_sub; [exact Hf|apply Sub; exact Hg]|]. intros u _. exists 0. ring. }
  apply GL in Ig as (c & Ec). assert (Ig : ideal nv p (param_gens nv elim cs) (uni_at nv (nv - 1) g)).
  { eapply I_eq; [apply (uni_mul nv p _ NV c elim); apply ideal_gen; left; reflexivity|]. intros x _. apply (uni_peq nv p NV). exact Ec. }
  eapply I_eq; [apply lspan_add; [exact Hg|exact Ig]|]. intros u _. exists 0. ring.
Qed.
Lemma param_unique nv p G D D' elim cs elim' cs' : (1 <= nv)%nat -> prime p -> parametrises nv p G D elim cs -> parametrises nv p G D' elim' cs' ->
  generates_last nv p G elim -> generates_last nv p G elim' -> elim = elim' /\ cs = cs'.
Proof.
  intros NV Hp P P' GL GL'. assert (ME : monic_of_degree p elim D) by (split; [apply P|split; [apply P|apply P]]). assert (ME' : monic_of_degree p elim' D') by (split; [apply P'|split; [apply P'|apply P']]).
  destruct (nf_of_monic p Hp _ _ ME) as [N1 D1]. destruct (nf_of_monic p Hp _ _ ME') as [N1' D1'].
  assert (V1 : pdvd p elim elim') by (apply GL; apply P'). assert (V2 : pdvd p elim' elim) by (apply GL'; apply P).
  pose proof (mutual_monic p Hp elim elim' D D' ME ME' V1 V2) as <-. split; [reflexivity|].
  assert (D' = D) as -> by (destruct ME as [L1 _], ME' as [L2 _]; lia).
  destruct P as (_ & _ & _ & _ & Lc & Hc), P' as (_ & _ & _ & _ & Lc' & Hc'). apply (nth_ext _ _ [] []); [congruence|]. intros q Hq. rewrite Lc in Hq. destruct (Hc q Hq) as (L1 & R1 & T1 & I1), (Hc' q Hq) as (L2 & R2 & T2 & I2).
  set (a := nth q cs []) in *. set (a' := nth q cs' []) in *. apply (nf_ext p Hp); [apply (nf_intro p); assumption|apply (nf_intro p); assumption|].
  assert (DV : pdvd p elim (padd a (pscal (-1) a'))).
  { apply GL. eapply I_eq; [apply lspan_sub; [exact I1|exact I2]|]. intros x _. unfold coord_poly. rewrite (uni_padd nv NV), (uni_pscal nv NV). exists 0. ring. }
  destruct DV as (c & Ec). assert (DA : dlt p (padd a (pscal (-1) a')) D). { apply dlt_add; [apply (dlt_le p _ (length a)); [exact L1|apply dlt_len]|apply dlt_scal; apply (dlt_le p _ (length a')); [exact L2|apply dlt_len]]. }
  destruct (div_unique p Hp c [] elim D [] (padd a (pscal (-1) a')) D1) as [_ K].
  - intros i _. rewrite pc_nil. reflexivity.
  - exact DA.
  - intros i. rewrite !pc_padd. rewrite <- (Ec i). rewrite pc_padd. cbn [pmul]. rewrite !pc_nil. exists 0. ring.
  - intros i. specialize (K i). rewrite pc_nil, pc_padd, pc_pscal in K. destruct K as [z K]. exists (- z). lia.
Qed.
