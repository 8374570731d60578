(** Substitution of polynomials in one variable: the ideal of x_k + c_k(x_n), elim(x_n) contains only the multiples of elim among the polynomials in x_n. *)
From Coq Require Import ZArith NArith Arith List Bool Lia Znumtheory Setoid Morphisms Ring.
From Verif Require Import LinSpec MonoSpec MonoSpecProofs GbSpec GbProofs GbIdeal FpSpec NmodModel FpProofs FglmSpec ParamProofs PointSpec PointProofs StepSpec.
Import ListNotations.
Open Scope Z_scope.

Section Sub.
Variable p : Z.
Notation "a == b" := (FpSpec.peq p a b) (at level 70).
Notation pmul := FpSpec.pmul.
Add Ring sub_ring : (pring p) (setoid (peq_eq p) (prext p)).
Fixpoint ppow (x : list Z) (n : nat) : list Z := match n with O => [1] | S k => pmul x (ppow x k) end.
Fixpoint smono (a : nat -> list Z) (m : mono) : list Z := match m with [] => [1] | e :: m' => pmul (ppow (a O) (N.to_nat e)) (smono (fun i => a (S i)) m') end.
Fixpoint sval (a : nat -> list Z) (h : list (Z * mono)) : list Z := match h with [] => [] | t :: h' => padd (pscal (fst t) (smono a (snd t))) (sval a h') end.
Fixpoint pcomp (f x : list Z) : list Z := match f with [] => [] | z :: f' => padd [z] (pmul x (pcomp f' x)) end.

Lemma ppow_add x n m : ppow x (n + m) == pmul (ppow x n) (ppow x m).
Proof. induction n as [|n IH]; cbn [Nat.add ppow]; [ring|]. rewrite IH. ring. Qed.
Lemma smono_mmul : forall u v a, length u = length v -> smono a (mmul u v) == pmul (smono a u) (smono a v).
Proof.
  induction u as [|x u IH]; intros [|y v] a H; try discriminate H; [cbn [mmul map2 smono]; ring|]. change (mmul (x :: u) (y :: v)) with ((x + y)%N :: mmul u v). cbn [smono]. rewrite IH by (injection H; auto). rewrite N2Nat.inj_add, ppow_add. ring.
Qed.
Lemma sval_app a f g : sval a (f ++ g) == padd (sval a f) (sval a g).
Proof. induction f as [|t f IH]; cbn [app sval]; [ring|]. rewrite IH. ring. Qed.
Lemma sval_scale a c f : sval a (map (fun t => (c * fst t, snd t)) f) == pscal c (sval a f).
Proof. induction f as [|t f IH]; cbn [map sval fst snd]; [reflexivity|]. rewrite IH. intros i. rewrite ?pc_pscal, ?pc_padd, ?pc_pscal. exists 0. ring. Qed.
Lemma sval_shift nv a u f : length u = nv -> (forall t, In t f -> length (snd t) = nv) -> sval a (shift u f) == pmul (smono a u) (sval a f).
Proof.
  intros Lu. induction f as [|[c v] f IH]; intros Lf; [cbn; ring|]. change (shift u ((c, v) :: f)) with ((c, mmul u v) :: shift u f). cbn [sval fst snd]. rewrite IH by (intros s Hs; apply Lf; right; exact Hs). rewrite smono_mmul.
  - rewrite !pscal_pmul. ring.
  - transitivity nv; [exact Lu|symmetry; exact (Lf (c, v) (or_introl eq_refl))].
Qed.
(** linear forms on lists of terms *)
Fixpoint lin (w : mono -> Z) (h : list (Z * mono)) : Z := match h with [] => 0 | t :: h' => fst t * w (snd t) + lin w h' end.
Lemma sval_lin a h i : pc (sval a h) i = lin (fun m => pc (smono a m) i) h.
Proof. induction h as [|t h IH]; [apply pc_nil|]. cbn [sval lin]. rewrite pc_padd, pc_pscal, IH. reflexivity. Qed.
Fixpoint zsum (L : list mono) (f : mono -> Z) : Z := match L with [] => 0 | m :: L' => f m + zsum L' f end.
Lemma zsum_add L f g : zsum L (fun m => f m + g m) = zsum L f + zsum L g.
Proof. induction L as [|m L IH]; cbn [zsum]; [reflexivity|]. rewrite IH. ring. Qed.
Lemma zsum_zero L f : (forall m, In m L -> f m = 0) -> zsum L f = 0.
Proof. induction L as [|m L IH]; intros H; cbn [zsum]; [reflexivity|]. rewrite (H m (or_introl eq_refl)), IH; [reflexivity|]. intros x Hx. apply H. right. exact Hx. Qed.
Lemma zsum_ext L f g : (forall m, In m L -> f m = g m) -> zsum L f = zsum L g.
Proof. induction L as [|m L IH]; intros H; cbn [zsum]; [reflexivity|]. rewrite (H m (or_introl eq_refl)), IH; [reflexivity|]. intros x Hx. apply H. right. exact Hx. Qed.
Lemma zsum_one L m (f : mono -> Z) : NoDup L -> In m L -> zsum L (fun x => if mono_dec m x then f x else 0) = f m.
Proof.
  induction L as [|x L IH]; intros ND Hm; [contradiction|]. apply NoDup_cons_iff in ND as [N1 N2]. cbn [zsum]. destruct Hm as [->|Hm].
  - destruct (mono_dec m m) as [_|]; [|congruence]. rewrite zsum_zero; [ring|]. intros y Hy. destruct (mono_dec m y) as [->|]; [contradiction|reflexivity].
  - rewrite IH by assumption. destruct (mono_dec m x) as [->|]; [contradiction|reflexivity].
Qed.
Lemma lin_sum w L h : NoDup L -> (forall t, In t h -> In (snd t) L) -> lin w h = zsum L (fun m => cf h m * w m).
Proof.
  intros ND. induction h as [|t h IH]; intros HL; cbn [lin]; [symmetry; apply zsum_zero; reflexivity|]. rewrite IH by (intros s Hs; apply HL; right; exact Hs).
  rewrite <- (zsum_one L (snd t) (fun m => fst t * w m) ND (HL t (or_introl eq_refl))). rewrite <- zsum_add. apply zsum_ext. intros m _. cbn [cf]. destruct (mono_dec (snd t) m); ring.
Qed.
Lemma lin_peq nv w (h h' : list (Z * mono)) : (forall t, In t h -> length (snd t) = nv) -> (forall t, In t h' -> length (snd t) = nv) -> GbSpec.peq nv p (cf h) (cf h') -> eqp p (lin w h) (lin w h').
Proof.
  intros L1 L2 E. set (L := nodup mono_dec (map snd h ++ map snd h')). assert (ND : NoDup L) by apply NoDup_nodup.
  rewrite (lin_sum w L h ND), (lin_sum w L h' ND).
  - assert (LL : forall m, In m L -> length m = nv). { intros m Hm. apply nodup_In in Hm. apply in_app_or in Hm as [Hm|Hm]; apply in_map_iff in Hm as (t & <- & Ht); [apply L1|apply L2]; exact Ht. }
    clear ND. induction L as [|m L IH]; cbn [zsum]; [reflexivity|]. rewrite (E m (LL m (or_introl eq_refl))), IH; [reflexivity|]. intros x Hx. apply LL. right. exact Hx.
  - intros t Ht. apply nodup_In, in_or_app. right. apply in_map. exact Ht.
  - intros t Ht. apply nodup_In, in_or_app. left. apply in_map. exact Ht.
Qed.
Lemma sval_peq nv a (h h' : list (Z * mono)) : (forall t, In t h -> length (snd t) = nv) -> (forall t, In t h' -> length (snd t) = nv) -> GbSpec.peq nv p (cf h) (cf h') -> sval a h == sval a h'.
Proof. intros L1 L2 E i. rewrite !sval_lin. apply (lin_peq nv); assumption. Qed.

Lemma smono_ones a l : (forall e, In e l -> e = 0%N) -> smono a l == [1].
Proof. revert a. induction l as [|e l IH]; intros a H; [reflexivity|]. cbn [smono]. rewrite IH by (intros x Hx; apply H; right; exact Hx). rewrite (H e (or_introl eq_refl)). cbn [N.to_nat ppow]. ring. Qed.
Lemma smono_xpow_gen : forall nv k j s a, (k < nv)%nat -> smono a (map (fun i => if (i =? s + k)%nat then N.of_nat j else 0%N) (seq s nv)) == ppow (a k) j.
Proof.
  induction nv as [|nv IH]; intros k j s a Hk; [lia|]. cbn [seq map smono]. destruct k as [|k].
  - rewrite Nat.add_0_r, Nat.eqb_refl, Nat2N.id. rewrite smono_ones; [ring|]. intros e He. apply in_map_iff in He as (i & <- & Hi). apply in_seq in Hi. destruct (Nat.eqb_spec i s); [lia|reflexivity].
  - destruct (Nat.eqb_spec s (s + S k)); [lia|]. replace (s + S k)%nat with (S s + k)%nat by lia. rewrite (IH k j (S s) (fun i => a (S i))) by lia. cbn [N.to_nat ppow]. ring.
Qed.
Lemma smono_x nv k j a : (k < nv)%nat -> smono a (xpow nv k j) == ppow (a k) j.
Proof. intros Hk. exact (smono_xpow_gen nv k j 0 a Hk). Qed.
Lemma sval_uni_gen nv k a f : (k < nv)%nat -> forall s, sval a (map (fun j => (nth (j - s) f 0, xpow nv k j)) (seq s (length f))) == pmul (ppow (a k) s) (pcomp f (a k)).
Proof.
  intros Hk. induction f as [|z f IH]; intros s; [cbn; ring|]. cbn [length seq map sval pcomp fst snd]. rewrite Nat.sub_diag. cbn [nth].
  rewrite (map_ext_in (fun j => (nth (j - s) (z :: f) 0, xpow nv k j)) (fun j => (nth (j - S s) f 0, xpow nv k j))).
  2: { intros j Hj. apply in_seq in Hj. replace (j - s)%nat with (S (j - S s)) by lia. reflexivity. }
  rewrite IH. rewrite (smono_x nv k s a Hk). cbn [ppow]. rewrite pscal_pmul. ring.
Qed.
Lemma sval_uni nv k a f : (k < nv)%nat -> sval a (uni_terms nv k f) == pcomp f (a k).
Proof.
  intros Hk. unfold uni_terms. rewrite (map_ext (fun j => (nth j f 0, xpow nv k j)) (fun j => (nth (j - 0) f 0, xpow nv k j))) by (intros j; rewrite Nat.sub_0_r; reflexivity). rewrite (sval_uni_gen nv k a f Hk 0). cbn [ppow]. ring.
Qed.
Lemma pcomp_T f : pcomp f [0; 1] == f.
Proof. induction f as [|z f IH]; [reflexivity|]. cbn [pcomp]. rewrite IH. rewrite pmul_x_l, pmul_1_l. intros [|i]; rewrite pc_padd, ?pc_cons0, ?pc_consS, ?pc_nil; exists 0; ring. Qed.

(** the polynomials sent to a multiple of E *)
Definition sent (nv : nat) (E : list Z) (a : nat -> list Z) (f : pf) : Prop := exists h : list (Z * mono), (forall t, In t h -> length (snd t) = nv) /\ (forall m : mono, length m = nv -> eqp p (f m) (cf h m)) /\ pdvd p E (sval a h).
Lemma ideal_sent nv E a (G : pf -> Prop) : (forall g, G g -> sent nv E a g) -> forall f, ideal nv p G f -> sent nv E a f.
Proof.
  intros HG f. induction 1 as [f (u & g & Lu & Hg & ->)| |x f g _ (h1 & L1 & E1 & c1 & V1) _ (h2 & L2 & E2 & c2 & V2)|f g _ (h & L & Q0 & V) Q].
  - destruct (HG g Hg) as (h & L & Q & c & V). exists (shift u h). split; [|split].
    + intros t Ht. apply in_map_iff in Ht as (t' & <- & Ht'). cbn [snd]. pose proof (L t' Ht') as Lt. rewrite mmul_length; [exact Lu|]. etransitivity; [exact Lu|symmetry; exact Lt].
    + intros m Hm. rewrite (cf_shift nv u h m Lu L Hm). unfold GbSpec.pmul. destruct (mdvdb u m); [|reflexivity]. apply Q. rewrite mquo_length; congruence.
    + exists (pmul (smono a u) c). rewrite (sval_shift nv a u h Lu L), V. ring.
  - exists []. split; [intros t []|]. split; [intros m _; reflexivity|]. exists []. reflexivity.
  - exists (map (fun t => (x * fst t, snd t)) h1 ++ h2). split; [|split].
    + intros t Ht. apply in_app_or in Ht as [Ht|Ht]; [|apply L2; exact Ht]. apply in_map_iff in Ht as (t' & <- & Ht'). exact (L1 t' Ht').
    + intros m Hm. rewrite cf_app, cf_scale. rewrite (E1 m Hm), (E2 m Hm). reflexivity.
    + exists (padd (pscal x c1) c2). rewrite sval_app, sval_scale, V1, V2, !pscal_pmul. ring.
  - exists h. split; [exact L|]. split; [|exact V]. intros m Hm. rewrite <- (Q0 m Hm). symmetry. apply Q. exact Hm.
Qed.
Lemma gens_last nv elim cs : (1 <= nv)%nat -> generates_last nv p (param_gens nv elim cs) elim.
Proof.
  intros NV Q. set (a := fun k => if (k =? nv - 1)%nat then [0; 1] else popp (nth k cs [])).
  assert (AN : a (nv - 1)%nat = [0; 1]) by (unfold a; rewrite Nat.eqb_refl; reflexivity). split.
  - intros IQ. apply (ideal_sent nv elim a) in IQ.
    + destruct IQ as (h & L & E & c & V). exists c. rewrite <- V. rewrite <- (sval_peq nv a (uni_terms nv (nv - 1) Q) h).
      * rewrite sval_uni by lia. rewrite AN, pcomp_T. reflexivity.
      * intros t. apply uni_terms_len.
      * exact L.
      * intros m Hm. exact (E m Hm).
    + intros g [->|(k & Hk & ->)].
      * exists (uni_terms nv (nv - 1) elim). split; [intros t; apply uni_terms_len|]. split; [intros m _; reflexivity|]. exists [1]. rewrite sval_uni by lia. rewrite AN, pcomp_T. ring.
      * exists ((1, xpow nv k 1) :: uni_terms nv (nv - 1) (nth k cs [])). split; [intros t [<-|Ht]; [apply xpow_len|exact (uni_terms_len _ _ _ _ Ht)]|]. split.
        -- intros m _. unfold coord_poly. change (uni_at nv (nv - 1) (nth k cs []) m) with (cf (uni_terms nv (nv - 1) (nth k cs [])) m). cbn [cf fst snd]. destruct (mono_dec _ m); exists 0; lia.
        -- exists []. cbn [sval fst snd]. rewrite (smono_x nv k 1 a) by lia. rewrite sval_uni by lia. rewrite AN, pcomp_T. unfold a. destruct (Nat.eqb_spec k (nv - 1)); [lia|]. cbn [ppow]. rewrite pscal_pmul. ring.
  - intros (c & V). eapply I_eq; [apply (uni_mul nv p _ NV c elim); apply ideal_gen; left; reflexivity|]. intros m _. apply (uni_peq nv p NV). exact V.
Qed.
End Sub.
