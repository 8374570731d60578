(** Theory of Gröbner bases needed for the engine: standard representations, Buchberger's criterion, the product
    criterion, representation by rows with different leading monomials, uniqueness of the reduced basis. *)
From Coq Require Import ZArith NArith Arith List Bool Lia Znumtheory.
From Verif Require Import LinSpec MonoSpec MonoSpecProofs GbSpec.
Import ListNotations.
Open Scope Z_scope.

Lemma mdvdb_iff a : forall b, length a = length b -> mdvdb a b = true <-> mdvd a b.
Proof.
  induction a as [|x a IH]; intros [|y b] H; cbn in H; try lia; cbn [mdvdb].
  - split; [intros _ i; unfold ex; destruct i; cbn; lia|reflexivity].
  - rewrite andb_true_iff, (IH b) by lia. split.
    + intros (H1 & H2) [|i]; [unfold ex; cbn; apply N.leb_le; assumption|]. apply (H2 i).
    + intros H1. split; [apply N.leb_le; apply (H1 O)|]. intros i. apply (H1 (S i)).
Qed.

Lemma lspan_mono nv p (S T : pf -> Prop) f : (forall g, S g -> lspan nv p T g) -> lspan nv p S f -> lspan nv p T f.
Proof. intros H. induction 1; eauto using lspan. Qed.
Lemma peq_refl nv p f : peq nv p f f.
Proof. intros m _. reflexivity. Qed.
Lemma peq_sym nv p f g : peq nv p f g -> peq nv p g f.
Proof. intros H m Hm. symmetry. auto. Qed.
Lemma peq_trans nv p f g h : peq nv p f g -> peq nv p g h -> peq nv p f h.
Proof. intros H1 H2 m Hm. rewrite (H1 m Hm). auto. Qed.
Lemma lspan_ext nv p S f g : lspan nv p S f -> (forall m, length m = nv -> g m = f m) -> lspan nv p S g.
Proof. intros H E. eapply ls_eq; [exact H|]. intros m Hm. rewrite E by assumption. reflexivity. Qed.
Lemma lspan_scale nv p S a f : lspan nv p S f -> lspan nv p S (fun m => a * f m).
Proof. intros H. eapply lspan_ext; [apply (ls_lin nv p S a f pzero H), ls_zero|]. intros m _. unfold pzero. lia. Qed.
Lemma lspan_add nv p S f g : lspan nv p S f -> lspan nv p S g -> lspan nv p S (fun m => f m + g m).
Proof. intros H H'. eapply lspan_ext; [apply (ls_lin nv p S 1 f g H H')|]. intros m _. cbv beta. lia. Qed.
Lemma lspan_sub nv p S f g : lspan nv p S f -> lspan nv p S g -> lspan nv p S (fun m => f m - g m).
Proof. intros H H'. eapply lspan_ext; [apply (ls_lin nv p S (-1) g f H' H)|]. intros m _. cbv beta. lia. Qed.
Lemma lspan_zero nv p S f : peq nv p f pzero -> lspan nv p S f.
Proof. intros H. eapply ls_eq; [apply ls_zero|]. apply peq_sym. assumption. Qed.

(** multiplication by a monomial *)
Lemma mul_quo nv u m : length u = nv -> length m = nv -> mdvd u m -> mmul u (mquo m u) = m.
Proof. intros Hu Hm H. rewrite mmul_comm by (rewrite mquo_length; lia). apply mdvd_mquo; [lia|assumption]. Qed.
Lemma mono_ext a b : length a = length b -> (forall i, ex a i = ex b i) -> a = b.
Proof. intros HL H. apply mdvd_antisym; [assumption| |]; intros i; rewrite H; lia. Qed.
Lemma mquo_mul u n : length u = length n -> mquo (mmul u n) u = n.
Proof.
  intros H. pose proof (mmul_length u n H) as HL. apply mono_ext; [rewrite mquo_length; lia|]. intros i. rewrite ex_mquo by lia. rewrite ex_mmul by lia. lia.
Qed.
Lemma mul_dvd u n : length u = length n -> mdvd u (mmul u n).
Proof. intros H i. rewrite ex_mmul by assumption. lia. Qed.
Lemma pmul_at nv u f n : length u = nv -> length n = nv -> pmul u f (mmul u n) = f n.
Proof.
  intros Hu Hn. unfold pmul. pose proof (mmul_length u n ltac:(lia)). rewrite (proj2 (mdvdb_iff u (mmul u n) ltac:(lia))) by (apply mul_dvd; lia).
  rewrite mquo_mul by lia. reflexivity.
Qed.
Lemma pmul_out nv u f m : length u = nv -> length m = nv -> ~ mdvd u m -> pmul u f m = 0.
Proof. intros Hu Hm H. unfold pmul. destruct (mdvdb u m) eqn:E; [|reflexivity]. rewrite mdvdb_iff in E by lia. contradiction. Qed.
Lemma mdvd_dec u m : length u = length m -> mdvd u m \/ ~ mdvd u m.
Proof. intros H. destruct (mdvdb u m) eqn:E; [left; apply mdvdb_iff; assumption|]. right. intros D. apply mdvdb_iff in D; [congruence|assumption]. Qed.
Lemma pmul_cases nv u f m : length u = nv -> length m = nv ->
  (exists n, length n = nv /\ m = mmul u n /\ pmul u f m = f n) \/ (~ mdvd u m /\ pmul u f m = 0).
Proof.
  intros Hu Hm. destruct (mdvd_dec u m ltac:(lia)) as [D|D].
  - left. exists (mquo m u). assert (L : length (mquo m u) = nv) by (rewrite mquo_length; lia). split; [assumption|].
    split; [symmetry; apply (mul_quo nv); assumption|]. rewrite <- (mul_quo nv u m Hu Hm D) at 1. apply (pmul_at nv); assumption.
  - right. split; [assumption|]. apply (pmul_out nv); assumption.
Qed.
Lemma pmul_peq nv p u f g : length u = nv -> peq nv p f g -> peq nv p (pmul u f) (pmul u g).
Proof.
  intros Hu H m Hm. destruct (pmul_cases nv u f m Hu Hm) as [(n & Hn & -> & E)|(D & E)].
  - rewrite !(pmul_at nv) by assumption. apply H. assumption.
  - rewrite E, (pmul_out nv) by assumption. reflexivity.
Qed.
Lemma pmul_lin u a f g m : pmul u (fun x => a * f x + g x) m = a * pmul u f m + pmul u g m.
Proof. unfold pmul. destruct (mdvdb u m); lia. Qed.
Lemma pmul_zero u m : pmul u pzero m = 0.
Proof. unfold pmul, pzero. destruct (mdvdb u m); reflexivity. Qed.
Lemma pmul_sub u f g m : pmul u (fun x => f x - g x) m = pmul u f m - pmul u g m.
Proof. unfold pmul. destruct (mdvdb u m); lia. Qed.
Lemma pmul_pmul nv u v f m : length u = nv -> length v = nv -> length m = nv -> pmul u (pmul v f) m = pmul (mmul u v) f m.
Proof.
  intros Hu Hv Hm. assert (Huv : length (mmul u v) = nv) by (rewrite mmul_length; lia).
  destruct (pmul_cases nv u (pmul v f) m Hu Hm) as [(n & Hn & -> & E)|(D & E)]; rewrite E.
  - destruct (pmul_cases nv v f n Hv Hn) as [(k & Hk & -> & E')|(D' & E')]; rewrite E'.
    + rewrite mmul_assoc by lia. symmetry. apply (pmul_at nv); assumption.
    + symmetry. apply (pmul_out nv); [assumption..|]. intros D. apply D'. intros i. specialize (D i). rewrite !ex_mmul in D by lia. lia.
  - symmetry. apply (pmul_out nv); [assumption..|]. intros D'. apply D. intros i. specialize (D' i). rewrite ex_mmul in D' by lia. lia.
Qed.

Section GB.
Variables (nv : nat) (lt : mono -> mono -> Prop) (p : Z).
Hypothesis MO : mono_order nv lt.

Notation poly := (list (Z * mono)) (only parsing).
Definition lm (f : poly) : mono := match f with t :: _ => snd t | [] => [] end.
(** monic with its leading term first *)
Definition good (g : poly) : Prop := exists (l : mono) (r : poly), g = (1, l) :: r /\ length l = nv /\ forall t : Z * mono, In t r -> length (snd t) = nv /\ lt (snd t) l.

Lemma lt_irr a : ~ lt a a. Proof. apply (mo_irrefl nv lt MO). Qed.
Lemma lt_tr a b c : length a = nv -> length b = nv -> length c = nv -> lt a b -> lt b c -> lt a c.
Proof. apply (mo_trans nv lt MO). Qed.
Lemma lt_tot a b : length a = nv -> length b = nv -> lt a b \/ a = b \/ lt b a.
Proof. apply (mo_total nv lt MO). Qed.
Lemma lt_mul a b c : length a = nv -> length b = nv -> length c = nv -> lt a b -> lt (mmul c a) (mmul c b).
Proof. apply (mo_mul nv lt MO). Qed.
Lemma lt_mul_inv a b c : length a = nv -> length b = nv -> length c = nv -> lt (mmul c a) (mmul c b) -> lt a b.
Proof.
  intros Ha Hb Hc H. assert (La : length (mmul c a) = nv) by (rewrite mmul_length; lia). assert (Lb : length (mmul c b) = nv) by (rewrite mmul_length; lia).
  destruct (lt_tot a b Ha Hb) as [D|[->|D]]; [assumption|destruct (lt_irr _ H)|].
  apply (lt_mul b a c Hb Ha Hc) in D. destruct (lt_irr (mmul c a)). apply (lt_tr _ (mmul c b)); assumption.
Qed.
Lemma dvd_le a b : length a = nv -> length b = nv -> mdvd a b -> a = b \/ lt a b.
Proof.
  intros Ha Hb D. assert (Hq : length (mquo b a) = nv) by (rewrite mquo_length; lia).
  destruct (list_eq_dec N.eq_dec (mquo b a) (mone nv)) as [E|E].
  - left. rewrite <- (mul_quo nv a b Ha Hb D), E. rewrite mmul_comm by (unfold mone; rewrite repeat_length; lia). symmetry. apply mmul_one_l. assumption.
  - right. pose proof (mo_one nv lt MO _ Hq E) as H. apply (lt_mul _ _ a) in H; [|unfold mone; apply repeat_length|assumption|assumption].
    rewrite (mul_quo nv a b Ha Hb D) in H. rewrite mmul_comm in H by (unfold mone; rewrite repeat_length; lia). rewrite mmul_one_l in H by assumption. assumption.
Qed.

Lemma good_len g : good g -> length (lm g) = nv.
Proof. intros (l & r & -> & H & _). exact H. Qed.
Lemma cf_not_in f m : (forall t, In t f -> snd t <> m) -> cf f m = 0.
Proof. induction f as [|t f IH]; intros H; cbn [cf]; [reflexivity|]. destruct (mono_dec (snd t) m) as [E|_]; [destruct (H t (or_introl eq_refl) E)|]. apply IH. intros u Hu. apply H. right. assumption. Qed.
Lemma good_lc g : good g -> cf g (lm g) = 1.
Proof.
  intros (l & r & -> & HL & H). cbn [cf lm fst snd]. destruct (mono_dec l l); [|congruence]. rewrite cf_not_in; [lia|]. intros t Ht E.
  destruct (H t Ht) as (_ & D). rewrite E in D. destruct (lt_irr _ D).
Qed.
Lemma good_above g m : good g -> length m = nv -> lt (lm g) m -> cf g m = 0.
Proof.
  intros (l & r & -> & HL & H) Hm D. cbn [lm snd] in D. apply cf_not_in. intros t [<-|Ht] E; cbn [snd] in E; subst m.
  - destruct (lt_irr _ D).
  - destruct (H t Ht) as (HLt & D'). destruct (lt_irr l). apply (lt_tr _ (snd t)); assumption.
Qed.
Lemma mul_lc g u : good g -> length u = nv -> pmul u (cf g) (mmul u (lm g)) = 1.
Proof. intros Hg Hu. rewrite (pmul_at nv) by (try apply good_len; assumption). apply good_lc. assumption. Qed.
Lemma mul_above g u m : good g -> length u = nv -> length m = nv -> lt (mmul u (lm g)) m -> pmul u (cf g) m = 0.
Proof.
  intros Hg Hu Hm D. destruct (pmul_cases nv u (cf g) m Hu Hm) as [(n & Hn & -> & E)|(_ & E)]; rewrite E; [|reflexivity].
  apply good_above; [assumption..|]. apply (lt_mul_inv _ _ u); auto using good_len.
Qed.

(** standard representations below t *)
Definition below (G : list poly) (t : mono) (h : pf) : Prop := exists u g, In g G /\ length u = nv /\ lt (mmul u (lm g)) t /\ h = pmul u (cf g).
Definition below_eq (G : list poly) (t : mono) (h : pf) : Prop :=
  exists u g, In g G /\ length u = nv /\ (lt (mmul u (lm g)) t \/ mmul u (lm g) = t) /\ h = pmul u (cf g).
Definition Rep (G : list poly) (t : mono) : pf -> Prop := lspan nv p (below G t).
Definition RepLe (G : list poly) (t : mono) : pf -> Prop := lspan nv p (below_eq G t).

Lemma Rep_incl G G' t f : (forall g, In g G -> In g G') -> Rep G t f -> Rep G' t f.
Proof. intros H. apply lspan_mono. intros h (u & g & Hg & R). apply ls_in. exists u, g. split; [auto|assumption]. Qed.
Lemma Rep_up G s t f : Forall good G -> length s = nv -> length t = nv -> lt s t -> Rep G s f -> Rep G t f.
Proof.
  intros HG Hs Ht D. apply lspan_mono. intros h (u & g & Hg & Hu & D' & E). apply ls_in. exists u, g. split; [assumption|]. split; [assumption|]. split; [|assumption].
  rewrite Forall_forall in HG. pose proof (good_len g (HG g Hg)). apply (lt_tr _ s); try assumption. rewrite mmul_length; lia.
Qed.
Lemma Rep_mul G t v f : Forall good G -> length t = nv -> length v = nv -> Rep G t f -> Rep G (mmul v t) (pmul v f).
Proof.
  intros HG Ht Hv H. rewrite Forall_forall in HG. induction H as [f H| |a f g Hf IHf Hg IHg|f g Hf IHf E].
  - destruct H as (u & g & Hg & Hu & D & ->). pose proof (good_len g (HG g Hg)) as L.
    eapply lspan_ext; [|intros m Hm; apply (pmul_pmul nv); assumption]. apply ls_in. exists (mmul v u), g. split; [assumption|].
    split; [rewrite mmul_length; lia|]. split; [|reflexivity]. rewrite <- mmul_assoc by lia. apply lt_mul; try assumption. rewrite mmul_length; lia.
  - apply lspan_zero. intros m Hm. rewrite pmul_zero. reflexivity.
  - eapply lspan_ext; [apply (ls_lin nv p _ a _ _ IHf IHg)|]. intros m _. apply pmul_lin.
  - eapply ls_eq; [exact IHf|]. apply pmul_peq; assumption.
Qed.

(** S-polynomial of two elements at a common multiple t of their leading monomials, and the relation that it has a
    standard representation below t *)
Definition spol (t : mono) (g h : poly) : pf := fun m => pmul (mquo t (lm g)) (cf g) m - pmul (mquo t (lm h)) (cf h) m.
Definition D (G : list poly) (t : mono) (g h : poly) : Prop := Rep G t (spol t g h).
Lemma D_refl G t g : D G t g g.
Proof. apply lspan_zero. intros m _. unfold spol, pzero. rewrite Z.sub_diag. reflexivity. Qed.
Lemma D_sym G t g h : D G t g h -> D G t h g.
Proof. intros H. eapply lspan_ext; [apply (lspan_scale nv p _ (-1) _ H)|]. intros m _. unfold spol. lia. Qed.
Lemma D_trans G t g h k : D G t g h -> D G t h k -> D G t g k.
Proof. intros H1 H2. eapply lspan_ext; [apply (lspan_add nv p _ _ _ H1 H2)|]. intros m _. unfold spol. lia. Qed.
Lemma quo_mul_quo t s l : length t = nv -> length s = nv -> length l = nv -> mdvd l s -> mdvd s t -> mmul (mquo t s) (mquo s l) = mquo t l.
Proof.
  intros Ht Hs Hl H1 H2. assert (La : length (mquo t s) = nv) by (rewrite mquo_length; lia). assert (Lb : length (mquo s l) = nv) by (rewrite mquo_length; lia).
  apply mono_ext; [rewrite mmul_length by lia; rewrite (mquo_length t l) by lia; lia|]. intros i. rewrite ex_mmul, !ex_mquo by lia. specialize (H1 i). specialize (H2 i). lia.
Qed.
Lemma D_up G s t g h : Forall good G -> good g -> good h -> length s = nv -> length t = nv -> mdvd (lm g) s -> mdvd (lm h) s -> mdvd s t -> D G s g h -> D G t g h.
Proof.
  intros HG Hg Hh Hs Ht Dg Dh Dt H. assert (Lq : length (mquo t s) = nv) by (rewrite mquo_length; lia). pose proof (good_len g Hg). pose proof (good_len h Hh).
  pose proof (Rep_mul G s (mquo t s) _ HG Hs Lq H) as R. rewrite mmul_comm in R by lia. rewrite (mul_quo nv) in R by assumption.
  eapply lspan_ext; [exact R|]. intros m Hm. unfold spol. rewrite pmul_sub. rewrite !(pmul_pmul nv) by (try assumption; rewrite mquo_length; lia).
  rewrite !quo_mul_quo by assumption. reflexivity.
Qed.

(** Buchberger's criterion *)
Lemma RepLe_above G t f m : Forall good G -> length t = nv -> length m = nv -> lt t m -> RepLe G t f -> eqp p (f m) 0.
Proof.
  intros HG Ht Hm Hl H. rewrite Forall_forall in HG. induction H as [f H| |a f g Hf IHf Hg IHg|f g Hf IHf E].
  - destruct H as (u & g & Hg & Hu & Hc & ->). rewrite mul_above; auto; [reflexivity|]. destruct Hc as [Hc|Hc]; [|rewrite Hc; assumption].
    pose proof (good_len g (HG g Hg)). apply (lt_tr _ t); auto. rewrite mmul_length; lia.
  - reflexivity.
  - rewrite IHf, IHg. exists 0. cbv beta. ring.
  - rewrite <- (E m Hm). assumption.
Qed.
Lemma Rep_at G t f : Forall good G -> length t = nv -> Rep G t f -> eqp p (f t) 0.
Proof.
  intros HG Ht H. rewrite Forall_forall in HG. induction H as [f H| |a f g Hf IHf Hg IHg|f g Hf IHf E].
  - destruct H as (u & g & Hg & Hu & Hc & ->). rewrite mul_above; auto. reflexivity.
  - reflexivity.
  - rewrite IHf, IHg. exists 0. cbv beta. ring.
  - rewrite <- (E t Ht). assumption.
Qed.
Lemma RepLe_split G t f g0 : Forall good G -> length t = nv -> In g0 G -> mdvd (lm g0) t ->
  (forall g, In g G -> mdvd (lm g) t -> D G t g g0) -> RepLe G t f -> Rep G t (fun m => f m - f t * pmul (mquo t (lm g0)) (cf g0) m).
Proof.
  intros HG Ht H0 Hd HD H. pose proof HG as HG'. rewrite Forall_forall in HG'. induction H as [f H| |a f g Hf IHf Hg IHg|f g Hf IHf E].
  - destruct H as (u & g & Hg & Hu & Hc & ->). pose proof (good_len g (HG' g Hg)) as L. destruct Hc as [Hc|Hc].
    + rewrite (mul_above g u t) by auto. eapply lspan_ext; [apply ls_in; exists u, g; repeat split; eauto|]. intros m _. cbv beta. lia.
    + assert (E1 : pmul u (cf g) t = 1) by (rewrite <- Hc; apply mul_lc; auto). rewrite E1.
      assert (Hdg : mdvd (lm g) t) by (rewrite <- Hc; apply mdvd_mmul_l; lia).
      eapply lspan_ext; [exact (HD g Hg Hdg)|]. intros m _. unfold spol. replace (mquo t (lm g)) with u; [lia|].
      rewrite <- Hc. rewrite mmul_comm by lia. rewrite mquo_mul by lia. reflexivity.
  - apply lspan_zero. intros m _. unfold pzero. exists 0. cbv beta. ring.
  - eapply lspan_ext; [apply (ls_lin nv p _ a _ _ IHf IHg)|]. intros m _. cbv beta. ring.
  - eapply ls_eq; [exact IHf|]. intros m Hm. rewrite (E m Hm). apply eqp_sub; [reflexivity|]. apply eqp_mul; [apply E; assumption|reflexivity].
Qed.
Lemma RepLe_none G t f : (forall g, In g G -> mdvd (lm g) t -> False) -> Forall good G -> RepLe G t f -> Rep G t f.
Proof.
  intros HN HG. apply lspan_mono. intros h (u & g & Hg & Hu & [Hc|Hc] & ->); [apply ls_in; exists u, g; auto|].
  rewrite Forall_forall in HG. pose proof (good_len g (HG g Hg)). destruct (HN g Hg). rewrite <- Hc. apply mdvd_mmul_l. lia.
Qed.
Lemma find_divisor (G : list poly) t : Forall good G -> length t = nv -> (exists g, In g G /\ mdvd (lm g) t) \/ forall g, In g G -> mdvd (lm g) t -> False.
Proof.
  intros HG Ht. induction G as [|g G IH]; [right; intros g []|]. inversion HG as [|x y Hg HG' Eq]; subst. destruct (IH HG') as [(h & Hh & Dh)|N].
  - left. exists h. split; [right; assumption|assumption].
  - destruct (mdvd_dec (lm g) t) as [Y|Y]; [rewrite good_len by assumption; lia|left; exists g; split; [left; reflexivity|assumption]|].
    right. intros h [<-|Hh]; [assumption|apply N; assumption].
Qed.
(** every combination has a largest monomial *)
Lemma RepLe_max G f : Forall good G -> ideal nv p (pfs G) f -> peq nv p f pzero \/ exists t, length t = nv /\ RepLe G t f.
Proof.
  intros HG H. pose proof HG as HG'. rewrite Forall_forall in HG'. induction H as [f H| |a f g Hf IHf Hg IHg|f g Hf IHf E].
  - destruct H as (u & g & Hu & (g0 & Hg0 & ->) & ->). right. pose proof (good_len g0 (HG' g0 Hg0)) as L. exists (mmul u (lm g0)). split; [rewrite mmul_length; lia|].
    apply ls_in. exists u, g0. auto.
  - left. apply peq_refl.
  - destruct IHf as [Zf|(s & Hs & Rf)]; destruct IHg as [Zg|(t & Ht & Rg)].
    + left. intros m Hm. rewrite (Zf m Hm), (Zg m Hm). unfold pzero. exists 0. cbv beta. ring.
    + right. exists t. split; [assumption|]. apply ls_lin; [apply lspan_zero|]; assumption.
    + right. exists s. split; [assumption|]. apply ls_lin; [|apply lspan_zero]; assumption.
    + assert (U : forall a b h, length a = nv -> length b = nv -> lt a b \/ a = b -> RepLe G a h -> RepLe G b h).
      { intros a0 b0 h La Lb [Hab| ->]; [|auto]. apply lspan_mono. intros k (u & g0 & H0 & Hu & Hc & Ek). apply ls_in. exists u, g0. split; [assumption|]. split; [assumption|]. split; [|assumption].
        left. pose proof (good_len g0 (HG' g0 H0)). destruct Hc as [Hc|Hc]; [apply (lt_tr _ a0); auto; rewrite mmul_length; lia|rewrite Hc; assumption]. }
      right. destruct (lt_tot s t Hs Ht) as [Hst|[->|Hst]].
      * exists t. split; [assumption|]. apply ls_lin; [apply (U s t); auto|assumption].
      * exists t. split; [assumption|]. apply ls_lin; assumption.
      * exists s. split; [assumption|]. apply ls_lin; [assumption|apply (U t s); auto].
  - destruct IHf as [Zf|(s & Hs & Rf)]; [left; eapply peq_trans; [apply peq_sym; exact E|exact Zf]|right]. exists s. split; [assumption|]. eapply ls_eq; eassumption.
Qed.
Lemma Rep_max G t f : Forall good G -> length t = nv -> Rep G t f -> peq nv p f pzero \/ exists s, length s = nv /\ lt s t /\ RepLe G s f.
Proof.
  intros HG Ht H. pose proof HG as HG'. rewrite Forall_forall in HG'. induction H as [f H| |a f g Hf IHf Hg IHg|f g Hf IHf E].
  - destruct H as (u & g & Hg & Hu & Hc & ->). right. pose proof (good_len g (HG' g Hg)) as L. exists (mmul u (lm g)). split; [rewrite mmul_length; lia|]. split; [assumption|].
    apply ls_in. exists u, g. auto.
  - left. apply peq_refl.
  - destruct IHf as [Zf|(s & Hs & Ds & Rf)]; destruct IHg as [Zg|(r & Hr & Dr & Rg)].
    + left. intros m Hm. rewrite (Zf m Hm), (Zg m Hm). unfold pzero. exists 0. cbv beta. ring.
    + right. exists r. split; [assumption|]. split; [assumption|]. apply ls_lin; [apply lspan_zero|]; assumption.
    + right. exists s. split; [assumption|]. split; [assumption|]. apply ls_lin; [|apply lspan_zero]; assumption.
    + assert (U : forall a b h, length a = nv -> length b = nv -> lt a b \/ a = b -> RepLe G a h -> RepLe G b h).
      { intros a0 b0 h La Lb [Hab| ->]; [|auto]. apply lspan_mono. intros k (u & g0 & H0 & Hu & Hc & Ek). apply ls_in. exists u, g0. split; [assumption|]. split; [assumption|]. split; [|assumption].
        left. pose proof (good_len g0 (HG' g0 H0)). destruct Hc as [Hc|Hc]; [apply (lt_tr _ a0); auto; rewrite mmul_length; lia|rewrite Hc; assumption]. }
      right. destruct (lt_tot s r Hs Hr) as [Hst|[->|Hst]].
      * exists r. split; [assumption|]. split; [assumption|]. apply ls_lin; [apply (U s r); auto|assumption].
      * exists r. split; [assumption|]. split; [assumption|]. apply ls_lin; assumption.
      * exists s. split; [assumption|]. split; [assumption|]. apply ls_lin; [assumption|apply (U r s); auto].
  - destruct IHf as [Zf|(s & Hs & Ds & Rf)]; [left; eapply peq_trans; [apply peq_sym; exact E|exact Zf]|right]. exists s. split; [assumption|]. split; [assumption|]. eapply ls_eq; eassumption.
Qed.
Lemma eqp_dec a b : eqp p a b \/ ~ eqp p a b.
Proof. unfold eqp. destruct (Zdivide_dec p (a - b)); auto. Qed.

Lemma lead_unique f a b : is_lead nv lt p f a -> is_lead nv lt p f b -> a = b.
Proof.
  intros (La & Na & Za) (Lb & Nb & Zb). destruct (lt_tot a b La Lb) as [H|[H|H]]; [|assumption|].
  - destruct (Nb (Za b Lb H)).
  - destruct (Na (Zb a La H)).
Qed.
Lemma lead_peq f g a : peq nv p f g -> is_lead nv lt p f a -> is_lead nv lt p g a.
Proof.
  intros E (L & N & Z0). split; [assumption|]. split; [rewrite <- (E a L); assumption|]. intros m Hm Hl. rewrite <- (E m Hm). auto.
Qed.
Hypothesis P1 : ~ eqp p 1 0.
Lemma good_lead g : good g -> is_lead nv lt p (cf g) (lm g).
Proof.
  intros H. split; [apply good_len; assumption|]. split; [rewrite good_lc; assumption|]. intros m Hm Hl. rewrite good_above; auto. reflexivity.
Qed.
Theorem buchberger G : Forall good G -> (forall g h, In g G -> In h G -> D G (mlcm (lm g) (lm h)) g h) ->
  forall f m, ideal nv p (pfs G) f -> is_lead nv lt p f m -> exists g, In g G /\ mdvd (lm g) m.
Proof.
  intros HG HD. pose proof HG as HG'. rewrite Forall_forall in HG'.
  assert (HD' : forall t g h, length t = nv -> In g G -> In h G -> mdvd (lm g) t -> mdvd (lm h) t -> D G t g h).
  { intros t g h Ht Hg Hh Dg Dh. pose proof (good_len g (HG' g Hg)). pose proof (good_len h (HG' h Hh)). apply (D_up G (mlcm (lm g) (lm h)) t); auto.
    - rewrite mlcm_length; lia.
    - apply mlcm_dvd_l. lia.
    - apply mlcm_dvd_r. lia.
    - apply mlcm_least; auto. lia. }
  assert (Key : forall t, length t = nv -> forall f m, RepLe G t f -> is_lead nv lt p f m -> exists g, In g G /\ mdvd (lm g) m).
  { intros t Ht. pose proof (mo_wf nv lt MO t Ht) as A. revert Ht. induction A as [t _ IH]. intros Ht f m R Lm.
    destruct (find_divisor G t HG Ht) as [(g0 & H0 & D0)|HN].
    - destruct (eqp_dec (f t) 0) as [E|E].
      + assert (R' : Rep G t f).
        { eapply ls_eq; [apply (RepLe_split G t f g0); auto|]. intros x Hx. cbv beta. rewrite E. exists 0. cbv beta. ring. }
        destruct (Rep_max G t f HG Ht R') as [Z0|(s & Hs & Ds & Rs)]; [destruct Lm as (Lm & N & _); destruct (N (Z0 m Lm))|]. apply (IH s ltac:(auto) Hs f m Rs Lm).
      + assert (m = t) by (apply (lead_unique f); [assumption|]; split; [assumption|]; split; [assumption|]; intros x Hx Hl; apply (RepLe_above G t f x); auto). subst m. eauto.
    - pose proof (RepLe_none G t f HN HG R) as R'.
      destruct (Rep_max G t f HG Ht R') as [Z0|(s & Hs & Ds & Rs)]; [destruct Lm as (Lm & N & _); destruct (N (Z0 m Lm))|]. apply (IH s ltac:(auto) Hs f m Rs Lm). }
  intros f m Hf Lm. destruct (RepLe_max G f HG Hf) as [Z0|(t & Ht & R)]; [destruct Lm as (Lm & N & _); destruct (N (Z0 m Lm))|]. apply (Key t Ht f); assumption.
Qed.
Theorem buchberger_groebner G : Forall good G -> (forall g h, In g G -> In h G -> D G (mlcm (lm g) (lm h)) g h) -> groebner nv lt p (pfs G).
Proof.
  intros HG HD f m Hf Lm. destruct (buchberger G HG HD f m Hf Lm) as (g & Hg & Dg). exists (cf g), (lm g). split; [exists g; auto|]. split; [|assumption].
  apply good_lead. rewrite Forall_forall in HG. auto.
Qed.

(** product criterion *)
Definition conv (f : poly) (g : pf) : pf := fun m => fold_right (fun t a => fst t * pmul (snd t) g m + a) 0 f.
Lemma conv_rep (G : list poly) (t : mono) (f g : poly) : In g G -> (forall s : Z * mono, In s f -> length (snd s) = nv /\ lt (mmul (snd s) (lm g)) t) -> Rep G t (conv f (cf g)).
Proof.
  intros Hg. induction f as [|s f IH]; intros H; [apply ls_zero|]. eapply lspan_ext; [apply (ls_lin nv p _ (fst s))|intros m _; reflexivity].
  - apply ls_in. exists (snd s), g. destruct (H s (or_introl eq_refl)). auto.
  - apply IH. intros u Hu. apply H. right. assumption.
Qed.
Lemma pmul_cf (u : mono) (g : poly) (m : mono) : length u = nv -> (forall t : Z * mono, In t g -> length (snd t) = nv) -> length m = nv ->
  pmul u (cf g) m = fold_right (fun t a => (if mono_dec (mmul u (snd t)) m then fst t else 0) + a) 0 g.
Proof.
  intros Hu Hg Hm. induction g as [|t g IH]; cbn [fold_right]; [apply (pmul_zero u m)|]. rewrite <- IH by (intros s Hs; apply Hg; right; assumption).
  destruct (pmul_cases nv u (cf (t :: g)) m Hu Hm) as [(n & Hn & -> & E)|(Nd & E)]; rewrite E; cbn [cf].
  - rewrite (pmul_at nv) by assumption. assert (Lt : length (snd t) = nv) by (apply Hg; left; reflexivity).
    destruct (mono_dec (snd t) n) as [E1|E1]; destruct (mono_dec (mmul u (snd t)) (mmul u n)) as [E2|E2]; [reflexivity|rewrite E1 in E2; destruct (E2 eq_refl)| |reflexivity].
    apply (f_equal (fun x => mquo x u)) in E2. rewrite !mquo_mul in E2 by lia. contradiction.
  - rewrite (pmul_out nv) by assumption. destruct (mono_dec (mmul u (snd t)) m) as [E2|E2]; [|lia]. destruct Nd. rewrite <- E2. apply mul_dvd. rewrite Hg by (left; reflexivity). assumption.
Qed.
Lemma fold_swap {A B} (k : A -> B -> Z) (f : list A) (g : list B) :
  fold_right (fun s a => fold_right (fun t b => k s t + b) 0 g + a) 0 f = fold_right (fun t b => fold_right (fun s a => k s t + a) 0 f + b) 0 g.
Proof.
  induction f as [|s f IH]; cbn [fold_right].
  - induction g as [|t g IHg]; cbn [fold_right]; [reflexivity|]. rewrite <- IHg. reflexivity.
  - rewrite IH. clear IH. induction g as [|t g IHg]; cbn [fold_right]; [reflexivity|]. lia.
Qed.
Lemma fold_scale {A} (c : Z) (k : A -> Z) (g : list A) : c * fold_right (fun t b => k t + b) 0 g = fold_right (fun t b => c * k t + b) 0 g.
Proof. induction g as [|t g IH]; cbn [fold_right]; [lia|]. rewrite <- IH. lia. Qed.
Lemma conv_sum (f g : poly) (m : mono) : (forall t, In t f -> length (snd t) = nv) -> (forall t : Z * mono, In t g -> length (snd t) = nv) -> length m = nv ->
  conv f (cf g) m = fold_right (fun s a => fold_right (fun t b => (if mono_dec (mmul (snd s) (snd t)) m then fst s * fst t else 0) + b) 0 g + a) 0 f.
Proof.
  intros Hf Hg Hm. unfold conv. induction f as [|s f IH]; cbn [fold_right]; [reflexivity|]. rewrite IH by (intros t Ht; apply Hf; right; assumption).
  f_equal. rewrite pmul_cf; auto; [|apply Hf; left; reflexivity]. rewrite (fold_scale (fst s)). clear. induction g as [|t g IH]; cbn [fold_right]; [reflexivity|]. rewrite IH.
  destruct (mono_dec (mmul (snd s) (snd t)) m); lia.
Qed.
Lemma conv_comm (f g : poly) (m : mono) : (forall t, In t f -> length (snd t) = nv) -> (forall t : Z * mono, In t g -> length (snd t) = nv) -> length m = nv -> conv f (cf g) m = conv g (cf f) m.
Proof.
  intros Hf Hg Hm. rewrite !conv_sum by assumption. rewrite fold_swap.
  assert (E : forall g' : poly, (forall t : Z * mono, In t g' -> length (snd t) = nv) ->
    fold_right (fun t b => fold_right (fun s a => (if mono_dec (mmul (snd s) (snd t)) m then fst s * fst t else 0) + a) 0 f + b) 0 g' =
    fold_right (fun s a => fold_right (fun t b => (if mono_dec (mmul (snd s) (snd t)) m then fst s * fst t else 0) + b) 0 f + a) 0 g').
  { induction g' as [|t g' IH]; intros Hg'; cbn [fold_right]; [reflexivity|]. rewrite IH by (intros s Hs; apply Hg'; right; assumption). f_equal.
    assert (Lt : length (snd t) = nv) by (apply Hg'; left; reflexivity). clear - Hf Lt. induction f as [|s f IH]; cbn [fold_right]; [reflexivity|].
    rewrite IH by (intros u Hu; apply Hf; right; assumption). f_equal. rewrite mmul_comm by (rewrite Hf by (left; reflexivity); lia). rewrite Z.mul_comm. reflexivity. }
  apply E. assumption.
Qed.
Lemma good_terms g : good g -> forall t : Z * mono, In t g -> length (snd t) = nv.
Proof. intros (l & r & -> & L & H) t [<-|Ht]; [assumption|]. apply H. assumption. Qed.
Theorem product_criterion G g h : In g G -> In h G -> good g -> good h -> mlcm (lm g) (lm h) = mmul (lm g) (lm h) -> D G (mlcm (lm g) (lm h)) g h.
Proof.
  intros Hg Hh Gg Gh E. rewrite E. set (t := mmul (lm g) (lm h)). pose proof (good_len g Gg) as Lg. pose proof (good_len h Gh) as Lh.
  pose proof (good_terms g Gg) as Tg. pose proof (good_terms h Gh) as Th. destruct Gg as (l & r & Eg & Ll & Hr). destruct Gh as (k & s & Eh & Lk & Hs).
  assert (Elg : lm g = l) by (rewrite Eg; reflexivity). assert (Elh : lm h = k) by (rewrite Eh; reflexivity).
  assert (R1 : Rep G t (conv r (cf h))).
  { apply conv_rep; [assumption|]. intros x Hx. destruct (Hr x Hx) as (Lx & Dx). split; [assumption|]. unfold t. rewrite Elg, Elh. rewrite (mmul_comm (snd x)), (mmul_comm l) by lia. apply lt_mul; auto. }
  assert (R2 : Rep G t (conv s (cf g))).
  { apply conv_rep; [assumption|]. intros x Hx. destruct (Hs x Hx) as (Lx & Dx). split; [assumption|]. unfold t. rewrite Elg, Elh. rewrite (mmul_comm (snd x)) by lia. apply lt_mul; auto. }
  eapply lspan_ext; [apply (lspan_sub nv p _ _ _ R1 R2)|]. intros m Hm. unfold spol. unfold t. rewrite Elg, Elh in *.
  rewrite mquo_mul by lia. rewrite mmul_comm by lia. rewrite mquo_mul by lia.
  pose proof (conv_comm g h m Tg Th Hm) as C. assert (A : forall (c : Z) (a : mono) (x : poly) (y : pf), conv ((c, a) :: x) y m = c * pmul a y m + conv x y m) by reflexivity.
  assert (C1 : conv g (cf h) m = pmul l (cf h) m + conv r (cf h) m) by (replace (conv g (cf h) m) with (conv ((1, l) :: r) (cf h) m) by (rewrite Eg; reflexivity); rewrite A; ring).
  assert (C2 : conv h (cf g) m = pmul k (cf g) m + conv s (cf g) m) by (replace (conv h (cf g) m) with (conv ((1, k) :: s) (cf g) m) by (rewrite Eh; reflexivity); rewrite A; ring).
  lia.
Qed.

(** rows with pairwise different leading monomials: an element of their span with zero coefficients from t on is in the
    span of the rows with smaller leading monomial *)
Lemma max_lead (R : list poly) : Forall good R -> R <> [] -> exists r, In r R /\ forall s, In s R -> lt (lm s) (lm r) \/ lm s = lm r.
Proof.
  induction R as [|r R IH]; intros HG Hne; [contradiction|]. inversion HG as [|x y Hr HR]; subst. destruct R as [|r2 R'].
  - exists r. split; [left; reflexivity|]. intros s [<-|[]]. right. reflexivity.
  - destruct (IH HR ltac:(discriminate)) as (b & Hb & Mb). rewrite Forall_forall in HR. pose proof (good_len b (HR b Hb)) as Lb. pose proof (good_len r Hr) as Lr.
    destruct (lt_tot (lm b) (lm r) Lb Lr) as [H|[H|H]].
    + exists r. split; [left; reflexivity|]. intros s [<-|Hs]; [right; reflexivity|]. left. destruct (Mb s Hs) as [H'|H']; [apply (lt_tr _ (lm b)); auto; apply good_len, HR; assumption|rewrite H'; assumption].
    + exists r. split; [left; reflexivity|]. intros s [<-|Hs]; [right; reflexivity|]. destruct (Mb s Hs) as [H'|H']; [left; rewrite <- H; assumption|right; congruence].
    + exists b. split; [right; assumption|]. intros s [<-|Hs]; [left; assumption|apply Mb; assumption].
Qed.
Lemma span_split (S : pf -> Prop) (r : pf) f : lspan nv p (fun h => S h \/ h = r) f -> exists c, lspan nv p S (fun m => f m - c * r m).
Proof.
  induction 1 as [f H| |a f g Hf IHf Hg IHg|f g Hf IHf E].
  - destruct H as [H| ->].
    + exists 0. eapply lspan_ext; [apply ls_in; exact H|]. intros m _. cbv beta. lia.
    + exists 1. apply lspan_zero. intros m _. unfold pzero. exists 0. cbv beta. ring.
  - exists 0. apply lspan_zero. intros m _. unfold pzero. exists 0. cbv beta. ring.
  - destruct IHf as (c & Hc). destruct IHg as (d & Hd). exists (a * c + d). eapply lspan_ext; [apply (ls_lin nv p _ a _ _ Hc Hd)|]. intros m _. cbv beta. ring.
  - destruct IHf as (c & Hc). exists c. eapply ls_eq; [exact Hc|]. intros m Hm. rewrite (E m Hm). reflexivity.
Qed.
Theorem distinct_leads (t : mono) : length t = nv -> forall n (R : list poly) f, length R = n -> Forall good R -> NoDup (map lm R) -> lspan nv p (pfs R) f ->
  (forall m, length m = nv -> lt t m \/ m = t -> eqp p (f m) 0) -> lspan nv p (fun h => exists r, In r R /\ lt (lm r) t /\ h = cf r) f.
Proof.
  intros Ht. induction n as [|n IH]; intros R f Hn HG HN Hf Hz.
  - destruct R; [|cbn in Hn; lia]. eapply lspan_mono; [|exact Hf]. intros h (r & [] & _).
  - destruct (max_lead R HG) as (b & Hb & Mb); [intros ->; cbn in Hn; lia|]. pose proof HG as HG'. rewrite Forall_forall in HG'. pose proof (good_len b (HG' b Hb)) as Lb.
    destruct (lt_tot (lm b) t Lb Ht) as [Hl|Hl].
    + eapply lspan_mono; [|exact Hf]. intros h (r & Hr & ->). apply ls_in. exists r. split; [assumption|]. split; [|reflexivity].
      destruct (Mb r Hr) as [H|H]; [apply (lt_tr _ (lm b)); auto; apply good_len; auto|rewrite H; assumption].
    + destruct (in_split _ _ Hb) as (R1 & R2 & ->). assert (HNb : forall s, In s (R1 ++ R2) -> lm s <> lm b).
      { rewrite map_app in HN. cbn [map] in HN. intros s Hs E. apply (NoDup_remove_2 _ _ _ HN). rewrite <- map_app, <- E. apply in_map. assumption. }
      assert (Hin : forall s, In s (R1 ++ R2) -> In s (R1 ++ b :: R2)) by (intros s Hs; apply in_app_or in Hs; apply in_or_app; destruct Hs; [left|right; right]; assumption).
      assert (Hf' : lspan nv p (fun h => pfs (R1 ++ R2) h \/ h = cf b) f).
      { eapply lspan_mono; [|exact Hf]. intros h (r & Hr & ->). apply ls_in. apply in_app_or in Hr. destruct Hr as [Hr|[<-|Hr]]; [left; exists r; split; [apply in_or_app; left; assumption|reflexivity]|right; reflexivity|left; exists r; split; [apply in_or_app; right; assumption|reflexivity]]. }
      destruct (span_split _ _ _ Hf') as (c & Hc).
      assert (Z0 : forall h, lspan nv p (pfs (R1 ++ R2)) h -> eqp p (h (lm b)) 0).
      { intros h H. induction H as [h H| |a h g Hh IHh Hg IHg|h g Hh IHh E].
        - destruct H as (s & Hs & ->). rewrite good_above; auto; [reflexivity|]. destruct (Mb s (Hin s Hs)) as [H|H]; [assumption|]. destruct (HNb s Hs H).
        - reflexivity.
        - rewrite IHh, IHg. exists 0. cbv beta. ring.
        - rewrite <- (E _ Lb). assumption. }
      assert (Ec : eqp p c 0).
      { specialize (Z0 _ Hc). cbn in Z0. rewrite good_lc in Z0 by auto. rewrite (Hz (lm b) Lb) in Z0 by (destruct Hl; auto).
        apply eqp_opp in Z0. replace (- (0 - c * 1)) with c in Z0 by lia. exact Z0. }
      assert (Hf2 : lspan nv p (pfs (R1 ++ R2)) f).
      { eapply ls_eq; [exact Hc|]. intros m _. cbv beta. rewrite Ec. exists 0. cbv beta. ring. }
      eapply lspan_mono; [|apply (IH (R1 ++ R2) f); auto].
      * intros h (r & Hr & Dr & ->). apply ls_in. exists r. split; [apply Hin; assumption|auto].
      * rewrite app_length in *. cbn in Hn. lia.
      * rewrite Forall_forall. intros s Hs. apply HG'. apply Hin. assumption.
      * rewrite map_app in *. cbn [map] in HN. apply NoDup_remove_1 in HN. assumption.
Qed.
End GB.
