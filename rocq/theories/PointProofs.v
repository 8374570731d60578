(** Ideals and the points where they vanish. *)
From Coq Require Import ZArith NArith Arith List Bool Lia Ring_theory Ring InitialRing.
From Verif Require Import LinSpec MonoSpec MonoSpecProofs GbSpec GbProofs GbIdeal PointSpec.
From Verif Require Import FglmSpec ParamProofs StepSpec.
Import ListNotations.
Open Scope Z_scope.

Section Points.
Variables (K : Type) (k0 k1 : K) (add mul sub : K -> K -> K) (opp : K -> K) (p : Z).
Hypothesis RK : ring_theory k0 k1 add mul sub opp eq.
Notation kz := (kz K k0 k1 add mul opp).
Hypothesis RP : kz p = k0.
Add Ring Kring : RK.
Notation kpow := (kpow K k1 mul).
Notation mval := (mval K k1 mul).
Notation pval := (pval K k0 k1 add mul opp).
Notation uval := (uval K k0 k1 add mul opp).
Lemma Eext : ring_eq_ext add mul opp (@eq K).
Proof. constructor; congruence. Qed.
Definition kmorph := gen_phiZ_morph (Eqsth K) Eext RK.
Lemma kz_add x y : kz (x + y) = add (kz x) (kz y).
Proof. apply (morph_add kmorph). Qed.
Lemma kz_mul x y : kz (x * y) = mul (kz x) (kz y).
Proof. apply (morph_mul kmorph). Qed.
Lemma kz_0 : kz 0 = k0.
Proof. apply (morph0 kmorph). Qed.
Lemma kz_1 : kz 1 = k1.
Proof. apply (morph1 kmorph). Qed.
Lemma kz_eqp x y : eqp p x y -> kz x = kz y.
Proof. intros [z E]. replace x with (y + z * p) by lia. rewrite kz_add, kz_mul, RP. ring. Qed.
Lemma kpow_add x n m : kpow x (n + m) = mul (kpow x n) (kpow x m).
Proof. induction n as [|n IH]; cbn [Nat.add PointSpec.kpow]; [ring|rewrite IH; ring]. Qed.
Lemma mval_mmul : forall u v a, length u = length v -> mval a (mmul u v) = mul (mval a u) (mval a v).
Proof.
  induction u as [|x u IH]; intros [|y v] a E; try discriminate E; [cbn; ring|]. change (mmul (x :: u) (y :: v)) with ((x + y)%N :: mmul u v). cbn [PointSpec.mval]. rewrite IH by (injection E; auto). rewrite N2Nat.inj_add, kpow_add. ring.
Qed.
Lemma pval_app a f g : pval a (f ++ g) = add (pval a f) (pval a g).
Proof. induction f as [|t f IH]; cbn [PointSpec.pval app]; [ring|rewrite IH; ring]. Qed.
Lemma pval_scale a c f : pval a (map (fun t => (c * fst t, snd t)) f) = mul (kz c) (pval a f).
Proof. induction f as [|t f IH]; cbn [PointSpec.pval map fst snd]; [ring|rewrite IH, kz_mul; ring]. Qed.
Lemma pval_shift nv a u f : length u = nv -> (forall t, In t f -> length (snd t) = nv) -> pval a (shift u f) = mul (mval a u) (pval a f).
Proof.
  intros Lu. induction f as [|t f IH]; intros Lf; unfold shift; cbn [PointSpec.pval map fst snd]; [ring|]. fold (shift u f). rewrite IH by (intros x Hx; apply Lf; right; exact Hx). rewrite mval_mmul by (rewrite Lu; symmetry; apply Lf; left; reflexivity). ring.
Qed.
Fixpoint ksum (L : list mono) (f : mono -> K) : K := match L with [] => k0 | m :: L' => add (f m) (ksum L' f) end.
Lemma ksum_ext L f g : (forall m, In m L -> f m = g m) -> ksum L f = ksum L g.
Proof. induction L as [|m L IH]; intros H; [reflexivity|]. cbn [ksum]. rewrite (H m (or_introl eq_refl)), IH; [reflexivity|]. intros x Hx. apply H. right. exact Hx. Qed.
Lemma ksum_one L m c f g : NoDup L -> In m L -> (forall x, x <> m -> g x = f x) -> g m = add c (f m) -> ksum L g = add c (ksum L f).
Proof.
  induction L as [|y L IH]; intros ND HI H1 H2; [destruct HI|]. inversion ND as [|? ? N1 N2]; subst. cbn [ksum]. destruct HI as [->|HI].
  - rewrite H2. rewrite (ksum_ext L g f); [ring|]. intros x Hx. apply H1. intros ->. contradiction.
  - rewrite (H1 y) by (intros ->; contradiction). rewrite IH by assumption. ring.
Qed.
Lemma pval_sum a L : NoDup L -> forall h, (forall t, In t h -> In (snd t) L) -> pval a h = ksum L (fun m => mul (kz (cf h m)) (mval a m)).
Proof.
  intros ND. induction h as [|t h IH]; intros HL.
  - cbn [PointSpec.pval cf]. clear ND HL. induction L as [|m L IH]; cbn [ksum]; [reflexivity|]. rewrite <- IH, kz_0. ring.
  - cbn [PointSpec.pval]. rewrite IH by (intros x Hx; apply HL; right; exact Hx). symmetry. apply (ksum_one L (snd t)); [exact ND|apply HL; left; reflexivity| |].
    + intros x Hx. cbn [cf]. destruct (mono_dec (snd t) x) as [E|]; [congruence|reflexivity].
    + cbn [cf]. destruct (mono_dec (snd t) (snd t)) as [_|]; [|congruence]. rewrite kz_add. ring.
Qed.
Lemma pval_peq nv a (h h' : list (Z * mono)) : (forall t, In t h -> length (snd t) = nv) -> (forall t, In t h' -> length (snd t) = nv) -> peq nv p (cf h) (cf h') -> pval a h = pval a h'.
Proof.
  intros L1 L2 E. set (L := nodup mono_dec (map snd h ++ map snd h')). assert (ND : NoDup L) by apply NoDup_nodup.
  rewrite (pval_sum a L ND h), (pval_sum a L ND h').
  - apply ksum_ext. intros m Hm. f_equal. apply kz_eqp. apply E. apply nodup_In in Hm. apply in_app_or in Hm as [Hm|Hm]; apply in_map_iff in Hm as (t & <- & Ht); [apply L1|apply L2]; exact Ht.
  - intros t Ht. apply nodup_In, in_or_app. right. apply in_map. exact Ht.
  - intros t Ht. apply nodup_In, in_or_app. left. apply in_map. exact Ht.
Qed.
(** a list of terms of f with value zero at a *)
Definition zero_at (nv : nat) (a : nat -> K) (f : pf) : Prop := exists h : list (Z * mono), (forall t, In t h -> length (snd t) = nv) /\ (forall m : mono, length m = nv -> eqp p (f m) (cf h m)) /\ pval a h = k0.
Lemma ideal_zero nv a (G : pf -> Prop) : (forall g, G g -> zero_at nv a g) -> forall f, ideal nv p G f -> zero_at nv a f.
Proof.
  intros HG f. induction 1 as [f (u & g & Lu & Hg & ->)| |x f g _ (h1 & L1 & E1 & V1) _ (h2 & L2 & E2 & V2)|f g _ (h & L & E & V) Q].
  - destruct (HG g Hg) as (h & L & E & V). exists (shift u h). split; [|split].
    + intros t Ht. apply in_map_iff in Ht as (t' & <- & Ht'). cbn [snd]. pose proof (L t' Ht') as Lt. rewrite mmul_length; [exact Lu|]. etransitivity; [exact Lu|symmetry; exact Lt].
    + intros m Hm. rewrite (cf_shift nv u h m Lu L Hm). unfold GbSpec.pmul. destruct (mdvdb u m); [|reflexivity]. apply E. rewrite mquo_length; congruence.
    + rewrite (pval_shift nv a u h Lu L), V. ring.
  - exists []. split; [intros t []|]. split; [intros m _; reflexivity|reflexivity].
  - exists (map (fun t => (x * fst t, snd t)) h1 ++ h2). split; [|split].
    + intros t Ht. apply in_app_or in Ht as [Ht|Ht]; [|apply L2; exact Ht]. apply in_map_iff in Ht as (t' & <- & Ht'). exact (L1 t' Ht').
    + intros m Hm. rewrite cf_app, cf_scale. rewrite (E1 m Hm), (E2 m Hm). reflexivity.
    + rewrite pval_app, pval_scale, V1, V2. ring.
  - exists h. split; [exact L|]. split; [|exact V]. intros m Hm. rewrite <- (E m Hm). symmetry. apply Q. exact Hm.
Qed.
Lemma zero_at_val nv a (h : list (Z * mono)) : (forall t, In t h -> length (snd t) = nv) -> zero_at nv a (cf h) <-> pval a h = k0.
Proof.
  intros L. split.
  - intros (h' & L' & E & V). etransitivity; [|exact V]. apply (pval_peq nv); [exact L|exact L'|exact E].
  - intros V. exists h. split; [exact L|]. split; [intros; reflexivity|exact V].
Qed.
Lemma zero_at_ext nv a f g : (forall m, length m = nv -> f m = g m) -> zero_at nv a f -> zero_at nv a g.
Proof. intros E (h & L & Q & V). exists h. split; [exact L|]. split; [|exact V]. intros m Hm. rewrite <- (E m Hm). apply Q. exact Hm. Qed.

(** the generators of a parametrisation *)
Lemma mval_ones a l : (forall e, In e l -> e = 0%N) -> mval a l = k1.
Proof. revert a. induction l as [|e l IH]; intros a H; [reflexivity|]. cbn [PointSpec.mval]. rewrite IH by (intros x Hx; apply H; right; exact Hx). rewrite (H e (or_introl eq_refl)). cbn [N.to_nat PointSpec.kpow]. ring. Qed.
Lemma mval_xpow : forall nv k j s a, (k < nv)%nat -> mval a (map (fun i => if (i =? s + k)%nat then N.of_nat j else 0%N) (seq s nv)) = kpow (a k) j.
Proof.
  induction nv as [|nv IH]; intros k j s a Hk; [lia|]. cbn [seq map PointSpec.mval]. destruct k as [|k].
  - rewrite Nat.add_0_r, Nat.eqb_refl, Nat2N.id. rewrite mval_ones; [ring|]. intros e He. apply in_map_iff in He as (i & <- & Hi). apply in_seq in Hi. destruct (Nat.eqb_spec i s); [lia|reflexivity].
  - destruct (Nat.eqb_spec s (s + S k)); [lia|]. replace (s + S k)%nat with (S s + k)%nat by lia. rewrite (IH k j (S s) (fun i => a (S i))) by lia. cbn [N.to_nat PointSpec.kpow]. ring.
Qed.
Lemma mval_x nv k j a : (k < nv)%nat -> mval a (xpow nv k j) = kpow (a k) j.
Proof. intros Hk. exact (mval_xpow nv k j 0 a Hk). Qed.
Lemma pval_uni_gen nv k a f : (k < nv)%nat -> forall s, pval a (map (fun j => (nth (j - s) f 0, xpow nv k j)) (seq s (length f))) = mul (kpow (a k) s) (uval (a k) f).
Proof.
  intros Hk. induction f as [|z f IH]; intros s; [cbn; ring|]. cbn [length seq map PointSpec.pval PointSpec.uval fst snd]. rewrite Nat.sub_diag. cbn [nth].
  rewrite (map_ext_in (fun j => (nth (j - s) (z :: f) 0, xpow nv k j)) (fun j => (nth (j - S s) f 0, xpow nv k j))).
  2: { intros j Hj. apply in_seq in Hj. replace (j - s)%nat with (S (j - S s)) by lia. reflexivity. }
  rewrite IH. rewrite (mval_x nv k s a Hk). cbn [PointSpec.kpow]. ring.
Qed.
Definition uni_terms (nv k : nat) (f : list Z) : list (Z * mono) := map (fun j => (nth j f 0, xpow nv k j)) (seq 0 (length f)).
Lemma pval_uni nv k a f : (k < nv)%nat -> pval a (uni_terms nv k f) = uval (a k) f.
Proof.
  intros Hk. unfold uni_terms. rewrite (map_ext (fun j => (nth j f 0, xpow nv k j)) (fun j => (nth (j - 0) f 0, xpow nv k j))) by (intros j; rewrite Nat.sub_0_r; reflexivity). rewrite (pval_uni_gen nv k a f Hk 0). cbn [PointSpec.kpow]. ring.
Qed.
Lemma uni_terms_len nv k f t : In t (uni_terms nv k f) -> length (snd t) = nv.
Proof. intros Ht. apply in_map_iff in Ht as (j & <- & _). apply xpow_len. Qed.
Lemma gens_zero nv elim cs a : (1 <= nv)%nat -> (forall f, param_gens nv elim cs f -> zero_at nv a f) <-> point_of K k0 k1 add mul opp nv elim cs a.
Proof.
  intros NV. assert (Z1 : zero_at nv a (uni_at nv (nv - 1) elim) <-> uval (a (nv - 1)%nat) elim = k0).
  { rewrite <- (pval_uni nv) by lia. apply (zero_at_val nv a). intros t. apply uni_terms_len. }
  assert (Z2 : forall k, (k < nv - 1)%nat -> zero_at nv a (coord_poly nv k (nv - 1) (nth k cs [])) <-> a k = opp (uval (a (nv - 1)%nat) (nth k cs []))).
  { intros k Hk. set (c := nth k cs []). assert (L : forall t, In t ((1, xpow nv k 1) :: uni_terms nv (nv - 1) c) -> length (snd t) = nv) by (intros t [<-|Ht]; [apply xpow_len|exact (uni_terms_len _ _ _ _ Ht)]).
    assert (V : pval a ((1, xpow nv k 1) :: uni_terms nv (nv - 1) c) = add (a k) (uval (a (nv - 1)%nat) c)).
    { cbn [PointSpec.pval fst snd]. rewrite (pval_uni nv) by lia. rewrite (mval_x nv k 1 a) by lia. rewrite kz_1. cbn [PointSpec.kpow]. ring. }
    assert (EQ : forall m, length m = nv -> coord_poly nv k (nv - 1) c m = cf ((1, xpow nv k 1) :: uni_terms nv (nv - 1) c) m).
    { intros m _. unfold coord_poly. change (uni_at nv (nv - 1) c m) with (cf (uni_terms nv (nv - 1) c) m). cbn [cf fst snd]. destruct (mono_dec _ m); lia. }
    transitivity (zero_at nv a (cf ((1, xpow nv k 1) :: uni_terms nv (nv - 1) c))). { split; apply zero_at_ext; intros m Hm; [apply EQ; exact Hm|symmetry; apply EQ; exact Hm]. }
    rewrite (zero_at_val nv a _ L), V. split; intros E; [|rewrite E; ring]. transitivity (add (add (a k) (uval (a (nv - 1)%nat) c)) (opp (uval (a (nv - 1)%nat) c))); [ring|]. rewrite E. ring. }
  split.
  - intros H. split; [apply Z1, H; left; reflexivity|]. intros k Hk. apply (Z2 k Hk). apply H. right. exists k. split; [exact Hk|reflexivity].
  - intros [A B] f [->|(k & Hk & ->)]; [apply Z1; exact A|apply Z2; [exact Hk|apply B; exact Hk]].
Qed.
Lemma list_zero nv (F : list (list (Z * mono))) a : (forall h t, In h F -> In t h -> length (snd t) = nv) -> (forall f, pfs F f -> zero_at nv a f) <-> zero_of K k0 k1 add mul opp F a.
Proof.
  intros LF. split.
  - intros H f Hf. apply (zero_at_val nv a f (fun t => LF f t Hf)). apply H. exists f. split; [exact Hf|reflexivity].
  - intros H f (h & Hh & ->). apply (zero_at_val nv a h (fun t => LF h t Hh)). apply H. exact Hh.
Qed.
(** same ideal, same zeroes *)
Lemma same_zero nv a (G G' : pf -> Prop) : same_ideal nv p G G' -> (forall g, G g -> zero_at nv a g) -> forall g, G' g -> zero_at nv a g.
Proof. intros SI H g Hg. apply (ideal_zero nv a G H). apply SI. apply ideal_gen. exact Hg. Qed.
Lemma unit_no_zero nv (F : list (list (Z * mono))) a : (forall h t, In h F -> In t h -> length (snd t) = nv) -> unit_ideal nv p (pfs F) -> zero_of K k0 k1 add mul opp F a -> k1 = k0.
Proof.
  intros LF U ZF. rewrite <- (list_zero nv F a LF) in ZF. pose proof (ideal_zero nv a (pfs F) ZF _ U) as V. apply (zero_at_val nv a [(1, mone nv)]) in V; [|intros t [<-|[]]; apply mone_length].
  cbn [PointSpec.pval fst snd] in V. rewrite kz_1, mval_ones in V; [|intros e He; apply repeat_spec in He; exact He]. transitivity (add (mul k1 k1) k0); [ring|exact V].
Qed.
End Points.
