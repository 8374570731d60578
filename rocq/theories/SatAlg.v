(** Algebra of the saturation: products with a polynomial, ideals and their saturation. *)
From Coq Require Import ZArith NArith Arith List Bool Lia.
From Verif Require Import LinSpec MonoSpec MonoSpecProofs GbSpec GbProofs GbIdeal SatSpec.
Import ListNotations.
Open Scope Z_scope.

Section Alg.
Variables (nv : nat) (p : Z).
Notation poly := (list (Z * mono)) (only parsing).

Lemma pprod_lin (g : poly) a f h m : pprod g (fun x => a * f x + h x) m = a * pprod g f m + pprod g h m.
Proof. unfold pprod. induction g as [|t g IH]; cbn [fold_right]; [lia|]. rewrite IH, pmul_lin. ring. Qed.
Lemma pprod_peq (g : poly) f h : in_vars nv g -> peq nv p f h -> peq nv p (pprod g f) (pprod g h).
Proof.
  intros Hg H m Hm. unfold pprod. induction g as [|t g IH]; cbn [fold_right]; [reflexivity|].
  pose proof (pmul_peq nv p (snd t) f h (Hg t (or_introl eq_refl)) H m Hm) as K. rewrite K.
  assert (K2 : eqp p (fold_right (fun t a => fst t * pmul (snd t) f m + a) 0 g) (fold_right (fun t a => fst t * pmul (snd t) h m + a) 0 g)) by (apply IH; intros s Hs; apply Hg; right; exact Hs).
  rewrite K2. reflexivity.
Qed.
Lemma pprod_zero (g : poly) m : pprod g pzero m = 0.
Proof. unfold pprod. induction g as [|t g IH]; cbn [fold_right]; [reflexivity|]. rewrite IH, pmul_zero. ring. Qed.
Lemma pprod_app (f g : poly) h m : pprod (f ++ g) h m = pprod f h m + pprod g h m.
Proof. unfold pprod. induction f as [|t f IH]; cbn [fold_right app]; [lia|]. rewrite IH. ring. Qed.
Lemma pprod_scale a (f : poly) h m : pprod (map (fun t => (a * fst t, snd t)) f) h m = a * pprod f h m.
Proof. unfold pprod. induction f as [|t f IH]; cbn [fold_right map fst snd]; [lia|]. rewrite IH. ring. Qed.
Lemma pprod_ideal (G : pf -> Prop) (g : poly) f : in_vars nv g -> ideal nv p G f -> ideal nv p G (pprod g f).
Proof.
  intros Hg Hf. induction g as [|t g IH]; [apply ls_zero|].
  eapply lspan_ext; [apply (ls_lin nv p _ (fst t) (pmul (snd t) f) (pprod g f))|intros m _; reflexivity].
  - apply ideal_mul; [apply Hg; left; reflexivity|exact Hf].
  - apply IH. intros s Hs. apply Hg. right. exact Hs.
Qed.
Lemma pmul_pprod u (g : poly) f m : length u = nv -> in_vars nv g -> length m = nv -> pmul u (pprod g f) m = pprod g (pmul u f) m.
Proof.
  intros Lu Hg Hm. induction g as [|t g IH]; [apply pmul_zero|].
  assert (Lt : length (snd t) = nv) by (apply Hg; left; reflexivity).
  change (pmul u (pprod (t :: g) f) m) with (pmul u (fun x => fst t * pmul (snd t) f x + pprod g f x) m). rewrite pmul_lin.
  change (pprod (t :: g) (pmul u f) m) with (fst t * pmul (snd t) (pmul u f) m + pprod g (pmul u f) m).
  rewrite IH by (intros s Hs; apply Hg; right; exact Hs). rewrite (pmul_pmul nv), (pmul_pmul nv), (mmul_comm u) by (assumption || congruence). reflexivity.
Qed.
Lemma pprod_swap (f g : poly) h m : in_vars nv f -> in_vars nv g -> length m = nv -> pprod f (pprod g h) m = pprod g (pprod f h) m.
Proof.
  intros Hf Hg Hm. induction f as [|t f IH].
  - change (pprod [] (pprod g h) m) with 0. symmetry. change (pprod [] h) with pzero. apply pprod_zero.
  - change (pprod (t :: f) (pprod g h) m) with (fst t * pmul (snd t) (pprod g h) m + pprod f (pprod g h) m). rewrite IH by (intros s Hs; apply Hf; right; exact Hs).
    rewrite pmul_pprod by (auto; apply Hf; left; reflexivity). change (pprod (t :: f) h) with (fun x => fst t * pmul (snd t) h x + pprod f h x). symmetry. apply pprod_lin.
Qed.

(** the polynomial 1 *)
Definition pone : pf := cf [(1, mone nv)].
Lemma pprod_one (f : poly) m : in_vars nv f -> length m = nv -> pprod f pone m = cf f m.
Proof.
  intros Hf Hm. induction f as [|t f IH]; [reflexivity|]. change (pprod (t :: f) pone m) with (fst t * pmul (snd t) pone m + pprod f pone m).
  rewrite IH by (intros s Hs; apply Hf; right; exact Hs). assert (Lt : length (snd t) = nv) by (apply Hf; left; reflexivity).
  unfold pone. rewrite (pmul_cf nv) by (auto; intros s [<-|[]]; apply mone_length). cbn [fold_right cf fst snd]. rewrite mmul_comm by (rewrite mone_length; exact Lt). rewrite mmul_one_l by exact Lt.
  destruct (mono_dec (snd t) m); ring.
Qed.
Lemma pprod_comm (f g : poly) m : in_vars nv f -> in_vars nv g -> length m = nv -> pprod f (cf g) m = pprod g (cf f) m.
Proof.
  intros Hf Hg Hm. assert (E : forall x : mono, length x = nv -> cf g x = pprod g pone x) by (intros x Hx; symmetry; apply pprod_one; assumption).
  assert (E' : forall x : mono, length x = nv -> cf f x = pprod f pone x) by (intros x Hx; symmetry; apply pprod_one; assumption).
  assert (X : forall (h : poly) (a b : pf), in_vars nv h -> (forall x, length x = nv -> a x = b x) -> pprod h a m = pprod h b m).
  { intros h a b Hh H. unfold pprod. induction h as [|t h IH]; cbn [fold_right]; [reflexivity|]. rewrite IH by (intros s Hs; apply Hh; right; exact Hs). f_equal. f_equal.
    destruct (pmul_cases nv (snd t) a m (Hh t (or_introl eq_refl)) Hm) as [(n & Hn & -> & K)|(D & K)]; rewrite K; [rewrite (pmul_at nv); [apply H; exact Hn|apply Hh; left; reflexivity|exact Hn]|].
    symmetry. apply (pmul_out nv); [apply Hh; left; reflexivity|exact Hm|exact D]. }
  rewrite (X f _ _ Hf E), (X g _ _ Hg E'). apply pprod_swap; assumption.
Qed.
(** products of lists of terms are lists of terms *)
Lemma pprod_list (f g : poly) : in_vars nv f -> in_vars nv g -> exists h, in_vars nv h /\ forall m, length m = nv -> pprod f (cf g) m = cf h m.
Proof.
  intros Hf Hg. induction f as [|t f IH]; [exists []; split; [intros s []|reflexivity]|].
  destruct IH as (h & Hh & E); [intros s Hs; apply Hf; right; exact Hs|]. assert (Lt : length (snd t) = nv) by (apply Hf; left; reflexivity).
  exists (map (fun s => (fst t * fst s, snd s)) (shift (snd t) g) ++ h). split.
  - intros s Hs. apply in_app_or in Hs as [Hs|Hs]; [|apply Hh; exact Hs]. apply in_map_iff in Hs as (x & <- & Hx). unfold shift in Hx. apply in_map_iff in Hx as (y & <- & Hy). cbn [fst snd]. pose proof (Hg y Hy) as Ly. rewrite mmul_length; congruence.
  - intros m Hm. rewrite cf_app, cf_scale, (cf_shift nv), <- E by auto. reflexivity.
Qed.
Lemma pprods_list (f : poly) k : forall g : poly, in_vars nv f -> in_vars nv g -> exists h, in_vars nv h /\ peq nv p (pprods f k (cf g)) (cf h).
Proof.
  intros g Hf Hg. induction k as [|k (h & Hh & E)]; [exists g; split; [exact Hg|apply peq_refl]|]. cbn [pprods].
  destruct (pprod_list f h Hf Hh) as (h' & Hh' & E'). exists h'. split; [exact Hh'|]. eapply peq_trans; [apply pprod_peq; [exact Hf|exact E]|]. intros m Hm. rewrite E' by exact Hm. reflexivity.
Qed.
Lemma pprods_peq (f : poly) k g h : in_vars nv f -> peq nv p g h -> peq nv p (pprods f k g) (pprods f k h).
Proof. intros Hf H. induction k as [|k IH]; [exact H|]. cbn [pprods]. apply pprod_peq; assumption. Qed.
Lemma pprods_add (f : poly) i j g : pprods f (i + j) g = pprods f i (pprods f j g).
Proof. induction i as [|i IH]; [reflexivity|]. cbn [pprods Nat.add]. rewrite IH. reflexivity. Qed.
Lemma pprods_ideal (G : pf -> Prop) (f : poly) k g : in_vars nv f -> ideal nv p G g -> ideal nv p G (pprods f k g).
Proof. intros Hf H. induction k as [|k IH]; [exact H|]. cbn [pprods]. apply pprod_ideal; assumption. Qed.
Lemma ideal_peq (G : pf -> Prop) f g : ideal nv p G f -> peq nv p f g -> ideal nv p G g.
Proof. intros H E. eapply ls_eq; eassumption. Qed.

(** a product that takes generators into an ideal takes their ideal into it *)
Lemma pprod_gens (F G : pf -> Prop) (phi : poly) : in_vars nv phi -> (forall g, G g -> ideal nv p F (pprod phi g)) -> forall f, ideal nv p G f -> ideal nv p F (pprod phi f).
Proof.
  intros Hphi H f Hf. unfold ideal in Hf. induction Hf as [f (u & g & Lu & Hg & ->)| |a f g Hf IHf Hg IHg|f g Hf IHf E].
  - eapply lspan_ext; [apply (ideal_mul nv p F u (pprod phi g) Lu); apply H; exact Hg|]. intros m Hm. symmetry. apply pmul_pprod; assumption.
  - eapply lspan_ext; [apply ls_zero|]. intros m Hm. apply pprod_zero.
  - eapply lspan_ext; [apply (ls_lin nv p _ a); [exact IHf|exact IHg]|]. intros m Hm. apply pprod_lin.
  - eapply ls_eq; [exact IHf|]. apply pprod_peq; assumption.
Qed.
Lemma pprods_gens (F G : pf -> Prop) (phi : poly) k : in_vars nv phi -> (forall g, G g -> ideal nv p F (pprods phi k g)) -> forall f, ideal nv p G f -> ideal nv p F (pprods phi k f).
Proof.
  intros Hphi. revert F. induction k as [|k IH]; intros F H f Hf; [exact (ideal_incl nv p G F H f Hf)|]. cbn [pprods] in *.
  (* intermediate ideal: what phi takes into F *)
  apply (pprod_gens F (fun h => exists g, G g /\ h = pprods phi k g) phi Hphi); [intros h (g & Hg & ->); apply H; exact Hg|].
  apply IH; [|exact Hf]. intros g Hg. apply ideal_gen. exists g. auto.
Qed.

(** membership in the ideal of G and one more polynomial *)
Lemma ideal_one_more (G : pf -> Prop) (phi : pf) f : ideal nv p (fun h => G h \/ h = phi) f ->
  exists j g, ideal nv p G j /\ in_vars nv g /\ peq nv p f (fun m => j m + pprod g phi m).
Proof.
  intros Hf. unfold ideal in Hf. induction Hf as [f (u & g & Lu & [Hg|Hg] & ->)| |a f g Hf (j1 & g1 & J1 & L1 & E1) Hg (j2 & g2 & J2 & L2 & E2)|f g Hf (j & h & J & L & E) Efg].
  - exists (pmul u g), []. split; [apply ideal_mul; [exact Lu|apply ideal_gen; exact Hg]|]. split; [intros t []|]. intros m Hm. change (pprod [] phi m) with 0. rewrite Z.add_0_r. reflexivity.
  - exists pzero, [(1, u)]. split; [apply ls_zero|]. split; [intros t [<-|[]]; exact Lu|]. intros m Hm. unfold pprod, pzero. cbn [fold_right fst snd]. rewrite Hg. replace (0 + (1 * pmul u phi m + 0)) with (pmul u phi m) by ring. reflexivity.
  - exists pzero, []. split; [apply ls_zero|]. split; [intros t []|]. intros m Hm. reflexivity.
  - exists (fun m => a * j1 m + j2 m), (map (fun t => (a * fst t, snd t)) g1 ++ g2). split; [apply (ls_lin nv p _ a); assumption|]. split.
    + intros t Ht. apply in_app_or in Ht as [Ht|Ht]; [|apply L2; exact Ht]. apply in_map_iff in Ht as (s & <- & Hs). apply (L1 s Hs).
    + intros m Hm. rewrite pprod_app, pprod_scale. rewrite (E1 m Hm), (E2 m Hm). match goal with |- eqp p ?x ?y => replace x with y by ring end. reflexivity.
  - exists j, h. split; [exact J|]. split; [exact L|]. eapply peq_trans; [apply peq_sym; exact Efg|exact E].
Qed.

(** if 1 lies in the ideal of G and phi, then G is saturated by phi *)
Lemma unit_colon (G : pf -> Prop) (phi f : poly) : in_vars nv phi -> in_vars nv f -> ideal nv p (fun h => G h \/ h = cf phi) pone ->
  ideal nv p G (pprod phi (cf f)) -> ideal nv p G (cf f).
Proof.
  intros Hphi Hf H1 Hk. destruct (ideal_one_more G (cf phi) pone H1) as (j & g & J & Lg & E).
  assert (E2 : peq nv p (cf f) (fun m => pprod f j m + pprod g (pprod phi (cf f)) m)).
  { eapply peq_trans; [intros m Hm; rewrite <- (pprod_one f m Hf Hm); reflexivity|]. eapply peq_trans; [apply pprod_peq; [exact Hf|exact E]|]. intros m Hm.
    assert (K : pprod f (fun x => j x + pprod g (cf phi) x) m = pprod f j m + pprod f (pprod g (cf phi)) m).
    { pose proof (pprod_lin f 1 j (pprod g (cf phi)) m) as K. rewrite Z.mul_1_l in K. rewrite <- K. unfold pprod. clear. induction f as [|t f IH]; cbn [fold_right]; [reflexivity|]. rewrite IH. f_equal. f_equal. unfold pmul. destruct (mdvdb (snd t) m); lia. }
    rewrite K. rewrite (pprod_swap f g) by assumption.
    assert (P1 : pprod g (pprod f (cf phi)) m = pprod g (pprod phi (cf f)) m).
    { assert (X : forall (h : poly) (a b : pf), in_vars nv h -> (forall x, length x = nv -> a x = b x) -> pprod h a m = pprod h b m).
      { intros h a b Hh H. unfold pprod. clear - Hh H Hm. induction h as [|t h IH]; cbn [fold_right]; [reflexivity|]. rewrite IH by (intros s Hs; apply Hh; right; exact Hs). f_equal. f_equal.
        destruct (pmul_cases nv (snd t) a m (Hh t (or_introl eq_refl)) Hm) as [(n & Hn & -> & K)|(D & K)]; rewrite K; [rewrite (pmul_at nv); [apply H; exact Hn|apply Hh; left; reflexivity|exact Hn]|].
        symmetry. apply (pmul_out nv); [apply Hh; left; reflexivity|exact Hm|exact D]. }
      apply X; [exact Lg|]. intros x Hx. apply pprod_comm; assumption. }
    rewrite P1. reflexivity. }
  eapply ideal_peq; [|apply peq_sym; exact E2]. apply lspan_add; [apply pprod_ideal; assumption|]. apply pprod_ideal; assumption.
Qed.
Lemma unit_colons (G : pf -> Prop) (phi : poly) k : forall f : poly, in_vars nv phi -> in_vars nv f -> ideal nv p (fun h => G h \/ h = cf phi) pone ->
  ideal nv p G (pprods phi k (cf f)) -> ideal nv p G (cf f).
Proof.
  induction k as [|k IH]; intros f Hphi Hf H1 Hk; [exact Hk|]. cbn [pprods] in Hk. apply IH; auto.
  destruct (pprods_list phi k f Hphi Hf) as (h & Hh & E). eapply ideal_peq; [|apply peq_sym; exact E]. apply (unit_colon G phi h); auto.
  eapply ideal_peq; [exact Hk|]. apply pprod_peq; assumption.
Qed.
End Alg.
