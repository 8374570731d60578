(** Ideals: multiples, finiteness, leading monomials; division by a set whose leading monomials cover the ideal; the
    reduced Gröbner basis is unique. *)
From Coq Require Import ZArith NArith Arith List Bool Lia Permutation Sorted Znumtheory.
From Verif Require Import LinSpec MonoSpec MonoSpecProofs GbSpec GbProofs.
Import ListNotations.
Open Scope Z_scope.

Section Ideals.
Variables (nv : nat) (lt : mono -> mono -> Prop) (p : Z).
Hypothesis MO : mono_order nv lt.
Notation poly := (list (Z * mono)) (only parsing).

Lemma ideal_mul (G : pf -> Prop) u f : length u = nv -> ideal nv p G f -> ideal nv p G (pmul u f).
Proof.
  intros Lu Hf. unfold ideal in *. induction Hf as [f (v & g & Lv & Hg & ->)| |a f g Hf IHf Hg IHg|f g Hf IHf E].
  - eapply lspan_ext; [apply ls_in; exists (mmul u v), g; split; [rewrite mmul_length; congruence|]; split; [exact Hg|reflexivity]|]. intros m Hm. apply (pmul_pmul nv); assumption.
  - apply lspan_zero. intros m _. rewrite pmul_zero. reflexivity.
  - eapply lspan_ext; [apply (ls_lin nv p _ a _ _ IHf IHg)|]. intros m _. apply pmul_lin.
  - eapply ls_eq; [exact IHf|]. apply pmul_peq; assumption.
Qed.
Lemma pmul_1 (f : pf) m : length m = nv -> pmul (mone nv) f m = f m.
Proof. intros H. rewrite <- (mmul_one_l m nv H) at 1. apply (pmul_at nv); [apply mone_length|exact H]. Qed.
Lemma ideal_gen (G : pf -> Prop) g : G g -> ideal nv p G g.
Proof. intros Hg. unfold ideal. eapply lspan_ext; [apply ls_in; exists (mone nv), g; split; [apply mone_length|]; split; [exact Hg|reflexivity]|]. intros m Hm. symmetry. apply pmul_1. exact Hm. Qed.
Lemma ideal_incl (F G : pf -> Prop) : (forall f, F f -> ideal nv p G f) -> forall f, ideal nv p F f -> ideal nv p G f.
Proof. intros H f Hf. unfold ideal in *. eapply lspan_mono; [|exact Hf]. intros h (u & g & Lu & Hg & ->). apply ideal_mul; [exact Lu|]. apply H. exact Hg. Qed.
Lemma same_ideal_intro (F G : pf -> Prop) : (forall f, F f -> ideal nv p G f) -> (forall g, G g -> ideal nv p F g) -> same_ideal nv p F G.
Proof. intros H1 H2 f. split; apply ideal_incl; assumption. Qed.

(** every element of an ideal generated by lists of terms is one *)
Lemma cf_app (f g : poly) m : cf (f ++ g) m = cf f m + cf g m.
Proof. induction f as [|t f IH]; cbn [app cf]; [lia|]. destruct (mono_dec (snd t) m); lia. Qed.
Lemma cf_scale a (f : poly) m : cf (map (fun t => (a * fst t, snd t)) f) m = a * cf f m.
Proof. induction f as [|t f IH]; cbn [map cf fst snd]; [lia|]. destruct (mono_dec (snd t) m); lia. Qed.
Definition shift (u : mono) (f : poly) : poly := map (fun t => (fst t, mmul u (snd t))) f.
Lemma cf_shift u (f : poly) m : length u = nv -> (forall t : Z * mono, In t f -> length (snd t) = nv) -> length m = nv -> cf (shift u f) m = pmul u (cf f) m.
Proof.
  intros Lu Hf Hm. unfold pmul. induction f as [|t f IH]; cbn [shift map cf fst snd]; [destruct (mdvdb u m); reflexivity|]. change (map _ f) with (shift u f). rewrite IH by (intros s Hs; apply Hf; right; exact Hs). assert (Lt : length (snd t) = nv) by (apply Hf; left; reflexivity).
  destruct (mdvdb u m) eqn:E.
  - apply mdvdb_iff in E; [|congruence]. destruct (mono_dec (mmul u (snd t)) m) as [K|K]; destruct (mono_dec (snd t) (mquo m u)) as [K'|K']; try reflexivity.
    + exfalso. apply K'. rewrite <- K. symmetry. apply mquo_mul. congruence.
    + exfalso. apply K. rewrite K'. apply (mul_quo nv); assumption.
  - destruct (mono_dec (mmul u (snd t)) m) as [K|K]; [|reflexivity]. exfalso. assert (mdvd u m) by (rewrite <- K; apply mul_dvd; congruence). apply mdvdb_iff in H; congruence.
Qed.
Definition lens (f : poly) : Prop := forall t : Z * mono, In t f -> length (snd t) = nv.
Lemma ideal_finite (G : list poly) f : Forall lens G -> ideal nv p (pfs G) f -> exists h, lens h /\ peq nv p f (cf h).
Proof.
  intros HG Hf. rewrite Forall_forall in HG. unfold ideal in Hf. induction Hf as [f (u & g & Lu & (g0 & Hg & ->) & ->)| |a f g Hf (h1 & L1 & E1) Hg (h2 & L2 & E2)|f g Hf (h & L & E) Efg].
  - exists (shift u g0). split; [intros t Ht; apply in_map_iff in Ht as (s & <- & Hs); cbn [snd]; pose proof (HG g0 Hg s Hs); rewrite mmul_length; congruence|]. intros m Hm. rewrite cf_shift; auto; [reflexivity|exact (HG g0 Hg)].
  - exists []. split; [intros t []|]. intros m _. reflexivity.
  - exists (map (fun t => (a * fst t, snd t)) h1 ++ h2). split.
    + intros t Ht. apply in_app_or in Ht as [Ht|Ht]; [|auto]. apply in_map_iff in Ht as (s & <- & Hs). apply (L1 s Hs).
    + intros m Hm. rewrite cf_app, cf_scale, (E1 m Hm), (E2 m Hm). reflexivity.
  - exists h. split; [exact L|]. eapply peq_trans; [apply peq_sym; exact Efg|exact E].
Qed.
Lemma max_nonzero (f : pf) (l : list mono) : (forall m, In m l -> length m = nv) -> (forall m, In m l -> eqp p (f m) 0) \/ exists m, In m l /\ ~ eqp p (f m) 0 /\ forall m', In m' l -> ~ eqp p (f m') 0 -> m' = m \/ lt m' m.
Proof.
  induction l as [|x l IH]; intros Hl; [left; intros m []|]. destruct IH as [Z|(m & Hm & N & M)]; [intros m Hm; apply Hl; right; exact Hm| |].
  - destruct (eqp_dec p (f x) 0) as [E|E]; [left; intros m [<-|Hm]; auto|]. right. exists x. split; [left; reflexivity|]. split; [exact E|]. intros m' [<-|Hm']; [auto|]. intros K. exfalso. apply K. auto.
  - right. destruct (eqp_dec p (f x) 0) as [E|E].
    + exists m. split; [right; exact Hm|]. split; [exact N|]. intros m' [<-|Hm'] K; [contradiction|auto].
    + assert (Lx : length x = nv) by (apply Hl; left; reflexivity). assert (L' : length m = nv) by (apply Hl; right; exact Hm). destruct (lt_tot nv lt MO x m Lx L') as [C|[C|C]].
      * exists m. split; [right; exact Hm|]. split; [exact N|]. intros m' [<-|Hm'] K; auto.
      * exists m. split; [right; exact Hm|]. split; [exact N|]. intros m' [<-|Hm'] K; auto.
      * exists x. split; [left; reflexivity|]. split; [exact E|]. intros m' [<-|Hm'] K; [auto|]. right. destruct (M m' Hm' K) as [->|C']; [exact C|]. apply (lt_tr nv lt MO m' m x); auto. apply Hl. right. exact Hm'.
Qed.
Lemma lead_exists (h : poly) : lens h -> peq nv p (cf h) pzero \/ exists m, is_lead nv lt p (cf h) m.
Proof.
  intros L. assert (Out : forall m, ~ In m (map snd h) -> cf h m = 0) by (intros m Hn; apply cf_not_in; intros t Ht E; apply Hn; rewrite <- E; apply in_map; exact Ht).
  destruct (max_nonzero (cf h) (map snd h)) as [Z|(m & Hm & N & M)].
  - intros m Hm. apply in_map_iff in Hm as (t & <- & Ht). apply L. exact Ht.
  - left. intros m _. unfold pzero. destruct (in_dec mono_dec m (map snd h)) as [H|H]; [auto|]. rewrite (Out m H). reflexivity.
  - right. exists m. split; [apply in_map_iff in Hm as (t & <- & Ht); apply L; exact Ht|]. split; [exact N|]. intros m' Lm' Hlt. destruct (in_dec mono_dec m' (map snd h)) as [H|H]; [|rewrite (Out m' H); reflexivity].
    destruct (eqp_dec p (cf h m') 0) as [E|E]; [exact E|]. exfalso. destruct (M m' H E) as [->|K]; [apply (lt_irr nv lt MO m Hlt)|]. apply (lt_irr nv lt MO m). apply (lt_tr nv lt MO m m' m); auto; apply in_map_iff in Hm as (t & <- & Ht); apply L; exact Ht.
Qed.
Lemma good_lens g : good nv lt g -> lens g.
Proof. intros H t Ht. eapply good_terms; eassumption. Qed.
Lemma ideal_lead (G : list poly) f : Forall (good nv lt) G -> ideal nv p (pfs G) f -> peq nv p f pzero \/ exists m, is_lead nv lt p f m.
Proof.
  intros HG Hf. destruct (ideal_finite G f) as (h & L & E); [|exact Hf|].
  - eapply Forall_impl; [|exact HG]. intros g. apply good_lens.
  - destruct (lead_exists h L) as [Z|(m & H)]; [left; eapply peq_trans; eassumption|right]. exists m. eapply lead_peq; [apply peq_sym; exact E|exact H].
Qed.

Hypothesis P1 : ~ eqp p 1 0.
(** a subset of the ideal whose leading monomials cover those of the ideal generates it and is a Gröbner basis *)
Theorem gb_subset (G G' : list poly) : Forall (good nv lt) G -> Forall (good nv lt) G' -> (forall g, In g G' -> ideal nv p (pfs G) (cf g)) ->
  (forall f m, ideal nv p (pfs G) f -> is_lead nv lt p f m -> exists g, In g G' /\ mdvd (lm g) m) ->
  same_ideal nv p (pfs G) (pfs G') /\ groebner nv lt p (pfs G').
Proof.
  intros HG HG' HI HL. rewrite Forall_forall in HG'. assert (Key : forall m, length m = nv -> forall f, ideal nv p (pfs G) f -> is_lead nv lt p f m -> ideal nv p (pfs G') f).
  { intros m Lm'. induction (mo_wf nv lt MO m Lm') as [m _ IH]. intros f Hf Hlead. destruct (HL f m Hf Hlead) as (g & Hg & Hd). pose proof (HG' g Hg) as Gg. pose proof (good_len nv lt g Gg) as Lg. pose proof Hlead as (_ & _ & Ab).
    set (u := mquo m (lm g)). assert (Lu : length u = nv) by (unfold u; rewrite mquo_length; congruence). assert (Em : mmul u (lm g) = m) by (rewrite mmul_comm by congruence; apply (mul_quo nv); assumption).
    set (f' := fun x => f x - f m * pmul u (cf g) x).
    assert (Hf' : ideal nv p (pfs G) f') by (apply lspan_sub; [exact Hf|]; apply lspan_scale; apply ideal_mul; [exact Lu|apply HI; exact Hg]).
    assert (If' : ideal nv p (pfs G') f').
    { destruct (ideal_lead G f' HG Hf') as [Z|(m' & Hm')]; [apply lspan_zero; exact Z|]. pose proof Hm' as (Lm2 & Nz & _). apply (IH m'); auto. split; [exact Lm2|]. split; [exact Lm'|]. destruct (lt_tot nv lt MO m' m Lm2 Lm') as [C|[C|C]]; [exact C| |].
      - exfalso. apply Nz. subst m'. unfold f'. rewrite <- Em at 3. rewrite (mul_lc nv lt MO g u Gg Lu). replace (f m - f m * 1) with 0 by ring. reflexivity.
      - exfalso. apply Nz. unfold f'. rewrite (mul_above nv lt MO g u m' Gg Lu Lm2) by (rewrite Em; exact C). rewrite (Ab m' Lm2 C). replace (0 - f m * 0) with 0 by ring. reflexivity. }
    assert (Ig : ideal nv p (pfs G') (pmul u (cf g))) by (apply ideal_mul; [exact Lu|]; apply ideal_gen; exists g; auto).
    eapply lspan_ext; [apply lspan_add; [exact If'|apply lspan_scale; exact Ig]|]. intros x _. unfold f'. cbv beta. instantiate (1 := f m). ring. }
  assert (S1 : forall f, ideal nv p (pfs G) f -> ideal nv p (pfs G') f).
  { intros f Hf. destruct (ideal_lead G f HG Hf) as [Z|(m & Hm)]; [apply lspan_zero; exact Z|]. apply (Key m (proj1 Hm)); assumption. }
  assert (S2 : forall f, ideal nv p (pfs G') f -> ideal nv p (pfs G) f) by (apply ideal_incl; intros f (g & Hg & ->); apply HI; exact Hg).
  split; [intros f; split; auto|]. intros f m Hf Hm. destruct (HL f m (S2 f Hf) Hm) as (g & Hg & Hd). exists (cf g), (lm g). split; [exists g; auto|]. split; [apply good_lead; auto|exact Hd].
Qed.

(** two reduced Gröbner bases of the same ideal have the same elements *)
Theorem reduced_unique (G H : list poly) : Forall (good nv lt) G -> Forall (good nv lt) H -> same_ideal nv p (pfs G) (pfs H) -> groebner nv lt p (pfs G) -> groebner nv lt p (pfs H) ->
  reduced_basis nv lt p G -> reduced_basis nv lt p H -> forall g, In g G -> exists h, In h H /\ lm g = lm h /\ peq nv p (cf g) (cf h).
Proof.
  intros HG HH SI GG GH RG RH g Hg. pose proof HG as HG0. pose proof HH as HH0. rewrite Forall_forall in HG, HH. destruct RG as [_ RG]. destruct RH as [_ RH].
  assert (LdG : forall g, In g G -> is_lead nv lt p (cf g) (lm g)) by (intros; apply good_lead; auto). assert (LdH : forall g, In g H -> is_lead nv lt p (cf g) (lm g)) by (intros; apply good_lead; auto).
  assert (LnG : forall g, In g G -> length (lm g) = nv) by (intros; eapply good_len; eauto). assert (LnH : forall g, In g H -> length (lm g) = nv) by (intros; eapply good_len; eauto).
  assert (NzG : forall g, In g G -> ~ eqp p (cf g (lm g)) 0) by (intros x Hx; apply (LdG x Hx)).
  assert (NzH : forall g, In g H -> ~ eqp p (cf g (lm g)) 0) by (intros x Hx; apply (LdH x Hx)).
  (* leading monomials agree *)
  destruct (GH (cf g) (lm g)) as (f1 & l1 & (h & Hh & ->) & L1 & D1); [apply SI; apply ideal_gen; exists g; auto|apply LdG; exact Hg|].
  rewrite (lead_unique nv lt p MO _ _ _ L1 (LdH h Hh)) in D1. clear f1 l1 L1 || clear l1 L1.
  destruct (GG (cf h) (lm h)) as (f2 & l2 & (g2 & Hg2 & ->) & L2 & D2); [apply SI; apply ideal_gen; exists h; auto|apply LdH; exact Hh|].
  rewrite (lead_unique nv lt p MO _ _ _ L2 (LdG g2 Hg2)) in D2. clear l2 L2.
  assert (E2 : g2 = g).
  { apply In_nth_error in Hg as (i & Hi). pose proof Hg2 as Hg2'. apply In_nth_error in Hg2' as (j & Hj). destruct (Nat.eq_dec i j) as [->|Nij]; [congruence|]. exfalso. apply (RG j i g2 g (lm g2) (lm g)); auto; [apply LnG; eapply nth_error_In; eassumption|apply NzG; eapply nth_error_In; eassumption|]. eapply mdvd_trans; eassumption. }
  subst g2. assert (Elm : lm g = lm h).
  { destruct (dvd_le nv lt MO (lm h) (lm g)) as [E|L1]; auto. destruct (dvd_le nv lt MO (lm g) (lm h)) as [E|L2]; auto. exfalso. apply (lt_irr nv lt MO (lm g)). apply (lt_tr nv lt MO (lm g) (lm h) (lm g)); auto. }
  exists h. split; [exact Hh|]. split; [exact Elm|].
  (* the difference has no leading monomial *)
  assert (Id : ideal nv p (pfs G) (fun m => cf g m - cf h m)) by (apply lspan_sub; [apply ideal_gen; exists g; auto|apply SI; apply ideal_gen; exists h; auto]).
  destruct (ideal_lead G _ HG0 Id) as [Z|(m & Hm)].
  - intros m Lm'. specialize (Z m Lm'). unfold pzero in Z. replace (cf g m) with ((cf g m - cf h m) + cf h m) by ring. rewrite Z. reflexivity.
  - exfalso. pose proof Hm as (Lm' & Nz & _). assert (Nm : m <> lm g).
    { intros ->. apply Nz. rewrite (good_lc nv lt MO g (HG g Hg)). rewrite Elm. rewrite (good_lc nv lt MO h (HH h Hh)). reflexivity. }
    destruct (GG _ m Id Hm) as (f3 & l3 & (g3 & Hg3 & ->) & L3 & D3). rewrite (lead_unique nv lt p MO _ _ _ L3 (LdG g3 Hg3)) in D3. clear l3 L3.
    assert (Blw : ~ lt (lm g) m).
    { intros K. apply Nz. rewrite (good_above nv lt MO g m (HG g Hg) Lm' K). rewrite (good_above nv lt MO h m (HH h Hh) Lm') by (rewrite <- Elm; exact K). reflexivity. }
    assert (Lt : lt m (lm g)) by (destruct (lt_tot nv lt MO m (lm g) Lm' (LnG g Hg)) as [C|[C|C]]; [exact C|contradiction|contradiction]).
    assert (N3 : lm g3 <> lm g).
    { intros E. rewrite E in D3. destruct (dvd_le nv lt MO (lm g) m (LnG g Hg) Lm' D3) as [C|C]; [congruence|contradiction]. }
    assert (Zg : eqp p (cf g m) 0).
    { destruct (eqp_dec p (cf g m) 0) as [E|E]; [exact E|]. exfalso. apply In_nth_error in Hg as (i & Hi). pose proof Hg3 as Hg3'. apply In_nth_error in Hg3' as (j & Hj). assert (j <> i) by (intros ->; congruence). apply (RG j i g3 g (lm g3) m); auto. }
    assert (Zh : eqp p (cf h m) 0).
    { destruct (eqp_dec p (cf h m) 0) as [E|E]; [exact E|]. exfalso. destruct (GH (cf g3) (lm g3)) as (f4 & l4 & (h3 & Hh3 & ->) & L4 & D4); [apply SI; apply ideal_gen; exists g3; auto|apply LdG; exact Hg3|].
      rewrite (lead_unique nv lt p MO _ _ _ L4 (LdH h3 Hh3)) in D4. clear l4 L4. assert (Hd : mdvd (lm h3) m) by (eapply mdvd_trans; eassumption).
      apply In_nth_error in Hh as (i & Hi). pose proof Hh3 as Hh3'. apply In_nth_error in Hh3' as (j & Hj). assert (j <> i).
      { intros ->. assert (h3 = h) by congruence. subst h3. rewrite <- Elm in Hd. destruct (dvd_le nv lt MO (lm g) m (LnG g Hg) Lm' Hd) as [C|C]; [congruence|contradiction]. }
      apply (RH j i h3 h (lm h3) m); auto. }
    apply Nz. rewrite Zg, Zh. reflexivity.
Qed.
End Ideals.
