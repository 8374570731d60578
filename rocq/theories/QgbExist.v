(** Every list of polynomials with integer coefficients has a reduced Groebner basis over the rationals. *)
From Coq Require Import ZArith NArith Arith List Bool Lia Znumtheory Setoid Permutation.
From Verif Require Import LinSpec MonoSpec MonoSpecProofs Dickson GbSpec GbProofs GbIdeal F4Rows F4Props QgbSpec QgbProofs.
Import ListNotations.
Open Scope Z_scope.
Notation poly := (list (Z * mono)) (only parsing).

Section E.
Variables (nv : nat) (lt : mono -> mono -> Prop).
Hypothesis MO : mono_order nv lt.

Definition fin (f : pf) : Prop := exists h : poly, lens nv h /\ forall m, length m = nv -> f m = cf h m.
Lemma fin_cf h : lens nv h -> fin (cf h). Proof. intros H. exists h. auto. Qed.
Lemma fin_lin a b f g : fin f -> fin g -> fin (fun m => a * f m - b * g m).
Proof.
  intros (h & L & E) (h' & L' & E'). exists (map (fun t => (a * fst t, snd t)) h ++ map (fun t => (- b * fst t, snd t)) h'). split.
  - intros t Ht. apply in_app_iff in Ht as [Ht|Ht]; apply in_map_iff in Ht as (s & <- & Hs); cbn [snd]; auto.
  - intros m Lm. rewrite cf_app, !cf_scale, (E m Lm), (E' m Lm). ring.
Qed.
Lemma fin_pmul u f : length u = nv -> fin f -> fin (pmul u f).
Proof.
  intros Lu (h & L & E). exists (shift u h). split.
  - intros t Ht. apply in_map_iff in Ht as (s & <- & Hs). cbn [snd]. pose proof (L s Hs). rewrite mmul_length; lia.
  - intros m Lm. rewrite (cf_shift nv) by assumption. destruct (pmul_cases nv u f m Lu Lm) as [(n & Ln & -> & K)|(Nd & K)]; rewrite K; [rewrite (pmul_at nv) by assumption; apply E; exact Ln|symmetry; apply (pmul_out nv); assumption].
Qed.
Lemma fin_lead f : fin f -> (forall m, length m = nv -> f m = 0) \/ exists m, is_lead nv lt 0 f m.
Proof.
  intros (h & L & E). destruct (lead_exists nv lt 0 MO h L) as [K|(m & L1 & L2 & L3)].
  - left. intros m Lm. rewrite (E m Lm). apply eqp_zero. apply (K m Lm).
  - right. exists m. split; [exact L1|]. split; [rewrite (E m L1); exact L2|]. intros m' Lm' H. rewrite (E m' Lm'). auto.
Qed.
Definition single (a : Z) (m : mono) : pf := cf [(a, m)].
Lemma fin_single a m : length m = nv -> fin (single a m). Proof. intros H. apply fin_cf. intros t [<-|[]]. exact H. Qed.
Lemma single_at a m : single a m m = a. Proof. unfold single. cbn [cf fst snd]. destruct (mono_dec m m); [lia|congruence]. Qed.
Lemma single_out a m x : x <> m -> single a m x = 0. Proof. intros H. unfold single. cbn [cf fst snd]. destruct (mono_dec m x); [congruence|reflexivity]. Qed.
Lemma lead_below f m f' : fin f' -> length m = nv -> f' m = 0 -> (forall x, length x = nv -> lt m x -> f' x = 0) -> is_lead nv lt 0 f m ->
  (forall x, length x = nv -> f' x = 0) \/ exists m', is_lead nv lt 0 f' m' /\ length m' = nv /\ lt m' m.
Proof.
  intros Ff Lm Z1 Z2 _. destruct (fin_lead f' Ff) as [K|(m' & HL)]; [left; exact K|]. right. exists m'. assert (Lm' : length m' = nv) by apply HL. split; [exact HL|]. split; [exact Lm'|].
  destruct (lt_tot nv lt MO m' m Lm' Lm) as [C|[C|C]]; [exact C|exfalso|exfalso]; destruct HL as (_ & N & _); apply N; apply eqp_zero; [rewrite C; exact Z1|apply Z2; assumption].
Qed.
Lemma is_lead_nz f m : is_lead nv lt 0 f m -> f m <> 0.
Proof. intros (_ & N & _) E. apply N. apply eqp_zero. exact E. Qed.
Lemma is_lead_above f m x : is_lead nv lt 0 f m -> length x = nv -> lt m x -> f x = 0.
Proof. intros (_ & _ & H) L K. apply eqp_zero. auto. Qed.

(** one step of the division, at the leading monomial m of f *)
Lemma red_step f m g : fin f -> is_lead nv lt 0 f m -> zsorted nv lt g -> mdvd (lead g) m ->
  let u := mquo m (lead g) in let f' := fun x => lcoef g * f x - f m * pmul u (cf g) x in
  length u = nv /\ mmul u (lead g) = m /\ fin f' /\ ((forall x, length x = nv -> f' x = 0) \/ exists m', is_lead nv lt 0 f' m' /\ length m' = nv /\ lt m' m).
Proof.
  intros Ff HL Zg Dv u f'. assert (Lm : length m = nv) by apply HL. destruct (z_len nv lt g Zg) as (Lg & Ng & LE). assert (Lu : length u = nv) by (unfold u; rewrite mquo_length; lia).
  assert (Eu : mmul u (lead g) = m) by (unfold u; rewrite mmul_comm by (rewrite mquo_length; lia); apply (mul_quo nv); assumption). destruct (z_mul_lead nv lt MO g u Zg Lu) as [A B]. rewrite Eu in A, B.
  split; [exact Lu|]. split; [exact Eu|]. assert (Ff' : fin f') by (apply fin_lin; [exact Ff|apply fin_pmul; [exact Lu|apply fin_cf; exact LE]]). split; [exact Ff'|].
  apply (lead_below f m f' Ff' Lm); [unfold f'; rewrite A; ring| |exact HL]. intros x Lx Hx. unfold f'. rewrite (is_lead_above f m x HL Lx Hx), (B x Lx Hx). ring.
Qed.
Lemma cover_dec (G : list poly) m : length m = nv -> Forall (zsorted nv lt) G -> (exists g, In g G /\ mdvd (lead g) m) \/ (forall g, In g G -> ~ mdvd (lead g) m).
Proof.
  intros Lm HG. induction HG as [|g G Hg HG IH]; [right; intros g []|]. destruct (z_len nv lt g Hg) as (Lg & _). destruct (mdvdb (lead g) m) eqn:E.
  - left. exists g. split; [left; reflexivity|]. apply mdvdb_iff in E; [exact E|congruence].
  - destruct IH as [(h & Hh & D)|N]; [left; exists h; split; [right; exact Hh|exact D]|]. right. intros h [<-|Hh]; [|auto]. intros D. apply mdvdb_iff in D; congruence.
Qed.

(** top reduction below t *)
Lemma top_rem (G : list poly) t : Forall (zsorted nv lt) G -> length t = nv -> forall m, length m = nv -> forall f, fin f -> lt m t -> is_lead nv lt 0 f m ->
  exists d r, d <> 0 /\ fin r /\ lspan nv 0 (zbelow nv lt G t) (fun x => d * f x - r x) /\
    ((forall x, length x = nv -> r x = 0) \/ exists m', is_lead nv lt 0 r m' /\ forall g, In g G -> ~ mdvd (lead g) m').
Proof.
  intros HG Lt m Lm. pose proof (mo_wf nv lt MO m Lm) as A. induction A as [m _ IH]. intros f Ff Hlt HL. destruct (cover_dec G m Lm HG) as [(g & Hg & Dv)|N].
  - pose proof HG as HG'. rewrite Forall_forall in HG'. pose proof (HG' g Hg) as Zg. destruct (z_len nv lt g Zg) as (_ & Ng & _). destruct (red_step f m g Ff HL Zg Dv) as (Lu & Eu & Ff' & C). set (u := mquo m (lead g)) in *. set (f' := fun x => lcoef g * f x - f m * pmul u (cf g) x) in *.
    assert (B : zbelow nv lt G t (pmul u (cf g))) by (exists u, g; split; [exact Hg|]; split; [exact Lu|]; split; [rewrite Eu; exact Hlt|reflexivity]).
    destruct C as [Z0|(m' & HL' & Lm' & Hm')].
    + exists (lcoef g), f'. split; [exact Ng|]. split; [exact Ff'|]. split; [|left; exact Z0]. eapply lspan_ext; [apply (lspan_scale _ _ _ (f m) _ (ls_in _ _ _ _ B))|]. intros x _. unfold f'. ring.
    + destruct (IH m' (conj Lm' (conj Lm Hm')) Lm' f' Ff' (lt_tr nv lt MO _ _ _ Lm' Lm Lt Hm' Hlt) HL') as (d & r & Nd & Fr & HS & Q). exists (d * lcoef g), r. split; [intros K; apply Z.mul_eq_0 in K; lia|]. split; [exact Fr|]. split; [|exact Q].
      eapply lspan_ext; [apply (lspan_add _ _ _ _ _ HS (lspan_scale _ _ _ (d * f m) _ (ls_in _ _ _ _ B)))|]. intros x _. cbn beta. unfold f'. ring.
  - exists 1, f. split; [lia|]. split; [exact Ff|]. split; [|right; exists m; split; assumption]. apply lspan_zero. intros x _. unfold pzero. replace (1 * f x - f x) with 0 by ring. reflexivity.
Qed.

(** full reduction *)
Lemma full_rem (G : list poly) : Forall (zsorted nv lt) G -> forall m, length m = nv -> forall f, fin f -> is_lead nv lt 0 f m ->
  exists d r, d <> 0 /\ ideal nv 0 (pfs G) (fun x => d * f x - cf r x) /\ (r = [] \/ zsorted nv lt r) /\
    (forall s, In s r -> (snd s = m \/ lt (snd s) m) /\ forall g, In g G -> ~ mdvd (lead g) (snd s)).
Proof.
  intros HG m Lm. pose proof (mo_wf nv lt MO m Lm) as A. induction A as [m _ IH]. intros f Ff HL. destruct (cover_dec G m Lm HG) as [(g & Hg & Dv)|N].
  - pose proof HG as HG'. rewrite Forall_forall in HG'. pose proof (HG' g Hg) as Zg. destruct (z_len nv lt g Zg) as (_ & Ng & _). destruct (red_step f m g Ff HL Zg Dv) as (Lu & Eu & Ff' & C). set (u := mquo m (lead g)) in *. set (f' := fun x => lcoef g * f x - f m * pmul u (cf g) x) in *.
    assert (B : multiple nv (pfs G) (pmul u (cf g))) by (exists u, (cf g); split; [exact Lu|]; split; [exists g; split; [exact Hg|reflexivity]|reflexivity]).
    destruct C as [Z0|(m' & HL' & Lm' & Hm')].
    + exists (lcoef g), []. split; [exact Ng|]. split; [|split; [left; reflexivity|intros s []]]. unfold ideal. eapply lspan_ext; [apply (lspan_scale _ _ _ (f m) _ (ls_in _ _ _ _ B))|]. intros x Lx. cbn [cf]. specialize (Z0 x Lx). unfold f' in Z0. rewrite Z.sub_0_r. apply -> Z.sub_move_0_r. exact Z0.
    + destruct (IH m' (conj Lm' (conj Lm Hm')) Lm' f' Ff' HL') as (d & r & Nd & HS & Sr & Q). exists (d * lcoef g), r. split; [intros K; apply Z.mul_eq_0 in K; lia|]. split; [|split; [exact Sr|]].
      * unfold ideal in *. eapply lspan_ext; [apply (lspan_add _ _ _ _ _ HS (lspan_scale _ _ _ (d * f m) _ (ls_in _ _ _ _ B)))|]. intros x _. cbn beta. unfold f'. ring.
      * intros s Hs. destruct (Q s Hs) as [[E|E] Q2]; (split; [|exact Q2]); right; [rewrite E; exact Hm'|]. apply (lt_tr nv lt MO _ m'); auto. destruct Sr as [->|(_ & Sr & _)]; [destruct Hs|]. apply (Sr s Hs).
  - set (f' := fun x => 1 * f x - f m * single 1 m x). assert (Ff' : fin f') by (apply fin_lin; [exact Ff|apply fin_single; exact Lm]).
    assert (NM : f m <> 0) by (apply (is_lead_nz f m HL)).
    destruct (lead_below f m f' Ff' Lm) as [Z0|(m' & HL' & Lm' & Hm')]; [unfold f'; rewrite single_at; ring| |exact HL| |].
    + intros x Lx Hx. unfold f'. rewrite (is_lead_above f m x HL Lx Hx), single_out; [ring|]. intros ->. apply (lt_irr nv lt MO _ Hx).
    + exists 1, [(f m, m)]. split; [lia|]. split; [|split].
      * apply lspan_zero. intros x Lx. specialize (Z0 x Lx). unfold f' in Z0. unfold pzero. apply eqp_zero. destruct (list_eq_dec N.eq_dec x m) as [->|NE]; [change (cf [(f m, m)] m) with (single (f m) m m); rewrite single_at; ring|]. rewrite (single_out _ m x NE) in Z0. change (cf [(f m, m)] x) with (single (f m) m x). rewrite single_out by exact NE. lia.
      * right. split; [discriminate|]. split; [intros t [<-|[]]; cbn; auto|]. intros [|[|i]] [|[|j]] s t Hi Hj Hij; cbn in Hi, Hj; try discriminate; try (destruct i; discriminate); try (destruct j; discriminate); lia.
      * intros s [<-|[]]. cbn [snd]. split; [left; reflexivity|exact N].
    + destruct (IH m' (conj Lm' (conj Lm Hm')) Lm' f' Ff' HL') as (d & r & Nd & HS & Sr & Q). exists d, ((d * f m, m) :: r). split; [exact Nd|].
      assert (BM : forall s, In s r -> lt (snd s) m). { intros s Hs. destruct (Q s Hs) as [[E|E] _]; [rewrite E; exact Hm'|]. apply (lt_tr nv lt MO _ m'); auto. destruct Sr as [->|(_ & Sr & _)]; [destruct Hs|]. apply (Sr s Hs). }
      split; [|split].
      * unfold ideal in *. eapply lspan_ext; [exact HS|]. intros x Lx. unfold f'. change (cf ((d * f m, m) :: r) x) with (if mono_dec m x then d * f m + cf r x else cf r x). destruct (mono_dec m x) as [E|E]; [subst x; rewrite single_at; ring|rewrite single_out by congruence; ring].
      * right. split; [discriminate|]. split.
        { intros t [<-|Ht]; cbn [fst snd]; [split; [intros K; apply Z.mul_eq_0 in K; lia|exact Lm]|]. destruct Sr as [->|(_ & Sr & _)]; [destruct Ht|]. apply (Sr t Ht). }
        intros [|i] [|j] s t Hi Hj Hij; try lia; cbn [nth_error] in Hi, Hj; [injection Hi as <-; cbn [snd]; apply BM; apply nth_error_In with (1 := Hj)|]. destruct Sr as [->|(_ & _ & Sr)]; [destruct i; discriminate|]. apply (Sr i j); auto. lia.
      * intros s [<-|Hs]; [cbn [snd]; split; [left; reflexivity|exact N]|]. split; [right; apply BM; exact Hs|apply (Q s Hs)].
Qed.
(** a polynomial as a sorted list *)
Lemma to_sorted f m : fin f -> is_lead nv lt 0 f m -> exists r, zsorted nv lt r /\ lead r = m /\ exists d, d <> 0 /\ forall x, length x = nv -> cf r x = d * f x.
Proof.
  intros Ff HL. assert (Lm : length m = nv) by apply HL. destruct (full_rem [] (Forall_nil _) m Lm f Ff HL) as (d & r & Nd & HS & Sr & Q).
  assert (E : forall x, length x = nv -> cf r x = d * f x).
  { assert (K : forall h, ideal nv 0 (pfs []) h -> peq nv 0 h pzero). { intros h Hh. unfold ideal in Hh. induction Hh as [g (u & h & Lu & (q & [] & _) & _)| |a g h Hg IHg Hh IHh|g h Hg IHg E]; intros x Lx; [reflexivity| |]; [rewrite (IHg x Lx), (IHh x Lx); unfold pzero; rewrite Z.mul_0_r; reflexivity|rewrite <- (E x Lx); apply IHg; exact Lx]. }
    intros x Lx. specialize (K _ HS x Lx). apply eqp_zero in K. unfold pzero in K. lia. }
  assert (NR : cf r m <> 0) by (rewrite (E m Lm); intros K; apply Z.mul_eq_0 in K as [K|K]; [contradiction|apply (is_lead_nz f m HL K)]).
  destruct Sr as [->|Sr]; [elim NR; reflexivity|]. exists r. split; [exact Sr|]. split; [|exists d; auto].
  apply cf_nz in NR as (t & Ht & Et). destruct r as [|s r]; [destruct Ht|]. destruct Ht as [->|Ht]; [exact Et|]. pose proof (z_tail nv lt s r Sr t Ht) as K. rewrite Et in K. destruct (Q s (or_introl eq_refl)) as [[E1|E1] _]; [exact E1|]. exfalso. apply (lt_irr nv lt MO m). apply (lt_tr nv lt MO _ (snd s)); auto. apply (proj1 (proj2 Sr) s (or_introl eq_refl)).
Qed.

(** * Ideals over the rationals *)
Lemma qideal_add G f g : qideal nv G f -> qideal nv G g -> qideal nv G (fun m => f m + g m).
Proof. intros (d & D & Hf) (e & E & Hg). exists (d * e). split; [intros K; apply Z.mul_eq_0 in K; lia|]. unfold ideal in *. eapply lspan_ext; [apply lspan_add; [apply (lspan_scale _ _ _ e _ Hf)|apply (lspan_scale _ _ _ d _ Hg)]|]. intros m _. cbn beta. ring. Qed.
Lemma qideal_ext G f g : qideal nv G f -> (forall m, length m = nv -> f m = g m) -> qideal nv G g.
Proof. intros (d & D & Hf) E. exists d. split; [exact D|]. unfold ideal in *. eapply lspan_ext; [exact Hf|]. intros m Lm. cbn beta. rewrite (E m Lm). reflexivity. Qed.
Lemma qideal_scale G a f : qideal nv G f -> qideal nv G (fun m => a * f m).
Proof. intros (d & D & Hf). exists d. split; [exact D|]. unfold ideal in *. eapply lspan_ext; [apply (lspan_scale _ _ _ a _ Hf)|]. intros m _. cbn beta. ring. Qed.
Lemma qideal_of G f : ideal nv 0 G f -> qideal nv G f.
Proof. intros H. exists 1. split; [lia|]. unfold ideal in *. eapply lspan_ext; [exact H|]. intros m _. cbn beta. ring. Qed.
Lemma qideal_unscale G d f : d <> 0 -> qideal nv G (fun m => d * f m) -> qideal nv G f.
Proof. intros D (e & E & H). exists (e * d). split; [intros K; apply Z.mul_eq_0 in K; lia|]. unfold ideal in *. eapply lspan_ext; [exact H|]. intros m _. cbn beta. ring. Qed.
Lemma qideal_self G g : In g G -> qideal nv (pfs G) (cf g).
Proof. intros H. apply qideal_of. apply ideal_gen. exists g. split; [exact H|reflexivity]. Qed.
Lemma qideal_sub (G H : list poly) : (forall g, In g G -> qideal nv (pfs H) (cf g)) -> forall f, qideal nv (pfs G) f -> qideal nv (pfs H) f.
Proof.
  intros K f (d & D & Hf). apply (qideal_unscale _ d f D). unfold ideal in Hf. induction Hf as [h (u & g & Lu & (q & Hq & ->) & ->)| |a g h Hg IHg Hh IHh|g h Hg IHg E].
  - destruct (K q Hq) as (e & E & He). exists e. split; [exact E|]. pose proof (ideal_mul nv 0 (pfs H) u _ Lu He) as Q. unfold ideal in *. eapply lspan_ext; [exact Q|]. intros m Lm. destruct (pmul_cases nv u (cf q) m Lu Lm) as [(n & Ln & -> & E1)|(Nd & E1)]; rewrite E1; [rewrite (pmul_at nv) by assumption; reflexivity|]. rewrite (pmul_out nv) by assumption. rewrite Z.mul_0_r. reflexivity.
  - apply qideal_of. apply lspan_zero. intros m _. reflexivity.
  - apply (qideal_add _ (fun m => a * g m)); [apply qideal_scale; exact IHg|exact IHh].
  - apply (qideal_ext _ g); [exact IHg|]. intros m Lm. apply eqp_zero. apply E. exact Lm.
Qed.
Lemma below_ideal G t f : lspan nv 0 (zbelow nv lt G t) f -> ideal nv 0 (pfs G) f.
Proof. intros H. unfold ideal. eapply lspan_mono; [|exact H]. intros h (u & g & Hg & Lu & _ & ->). apply ls_in. exists u, (cf g). split; [exact Lu|]. split; [exists g; split; [exact Hg|reflexivity]|reflexivity]. Qed.
Lemma qideal_fin G f : Forall (zsorted nv lt) G -> qideal nv (pfs G) f -> exists d, d <> 0 /\ fin (fun m => d * f m).
Proof.
  intros HG (d & D & Hf). exists d. split; [exact D|]. destruct (ideal_finite nv 0 G _ ltac:(eapply Forall_impl; [|exact HG]; intros g Hg; apply (z_len nv lt g Hg)) Hf) as (h & L & E). exists h. split; [exact L|]. intros m Lm. apply eqp_zero. apply (E m Lm).
Qed.

(** * Completion *)
Lemma pair_or (G : list poly) g h : Forall (zsorted nv lt) G -> In g G -> In h G -> zpair nv lt G g h \/ exists r, zsorted nv lt r /\ qideal nv (pfs G) (cf r) /\ forall x, In x G -> ~ mdvd (lead x) (lead r).
Proof.
  intros HG Hg Hh. pose proof HG as HG'. rewrite Forall_forall in HG'. pose proof (HG' g Hg) as Zg. pose proof (HG' h Hh) as Zh. destruct (z_len nv lt g Zg) as (Lg & _ & LEg). destruct (z_len nv lt h Zh) as (Lh & _ & LEh).
  unfold zpair. set (t := mlcm (lead g) (lead h)). assert (Lt : length t = nv) by (unfold t; rewrite mlcm_length; lia).
  assert (Ug : length (mquo t (lead g)) = nv) by (rewrite mquo_length; lia). assert (Uh : length (mquo t (lead h)) = nv) by (rewrite mquo_length; lia).
  assert (Eg : mmul (mquo t (lead g)) (lead g) = t) by (rewrite mmul_comm by lia; apply (mul_quo nv); try assumption; apply mlcm_dvd_l; lia).
  assert (Eh : mmul (mquo t (lead h)) (lead h) = t) by (rewrite mmul_comm by lia; apply (mul_quo nv); try assumption; apply mlcm_dvd_r; lia).
  assert (QS : qideal nv (pfs G) (zspol t g h)) by (apply qideal_lin; apply qideal_gen; assumption).
  assert (FS : fin (zspol t g h)) by (apply fin_lin; apply fin_pmul; try assumption; apply fin_cf; assumption).
  destruct (z_mul_lead nv lt MO g _ Zg Ug) as [G1 G2]. destruct (z_mul_lead nv lt MO h _ Zh Uh) as [H1 H2]. rewrite Eg in G1, G2. rewrite Eh in H1, H2.
  destruct (fin_lead _ FS) as [K|(m & HL)].
  - left. exists 1. split; [lia|]. apply lspan_zero. intros m Lm. rewrite (K m Lm). reflexivity.
  - assert (Lm : length m = nv) by apply HL. assert (Hlt : lt m t).
    { destruct (lt_tot nv lt MO m t Lm Lt) as [C|[C|C]]; [exact C|exfalso|exfalso]; apply (is_lead_nz _ _ HL); unfold zspol; [rewrite C, G1, H1; ring|rewrite G2, H2 by assumption; ring]. }
    destruct (top_rem G t HG Lt m Lm _ FS Hlt HL) as (d & r & Nd & Fr & HS & [Z0|(m' & HL' & ND)]).
    + left. exists d. split; [exact Nd|]. eapply lspan_ext; [exact HS|]. intros x Lx. cbn beta. rewrite (Z0 x Lx). rewrite Z.sub_0_r. reflexivity.
    + right. destruct (to_sorted r m' Fr HL') as (r' & Zr & El & e & Ne & Er). exists r'. split; [exact Zr|]. split; [|rewrite El; exact ND].
      apply (qideal_ext _ (fun x => (e * d) * zspol t g h x - e * (d * zspol t g h x - r x))); [|intros x Lx; rewrite (Er x Lx); ring].
      apply qideal_lin; [exact QS|]. apply qideal_of. apply (below_ideal G t). exact HS.
Qed.
Lemma pairs_or (G : list poly) : Forall (zsorted nv lt) G -> (forall g h, In g G -> In h G -> zpair nv lt G g h) \/ exists r, zsorted nv lt r /\ qideal nv (pfs G) (cf r) /\ forall x, In x G -> ~ mdvd (lead x) (lead r).
Proof.
  intros HG. assert (H : forall l, (forall gh, In gh l -> In (fst gh) G /\ In (snd gh) G) -> (forall gh, In gh l -> zpair nv lt G (fst gh) (snd gh)) \/ exists r, zsorted nv lt r /\ qideal nv (pfs G) (cf r) /\ forall x, In x G -> ~ mdvd (lead x) (lead r)).
  { intros l. induction l as [|gh l IH]; intros HI; [left; intros gh []|]. destruct (HI gh (or_introl eq_refl)) as [A B]. destruct (pair_or G _ _ HG A B) as [P|R]; [|right; exact R]. destruct IH as [Q|R]; [intros x Hx; apply HI; right; exact Hx| |right; exact R]. left. intros x [<-|Hx]; auto. }
  destruct (H (list_prod G G)) as [P|R]; [|left|right; exact R]; [intros [g h] K; apply in_prod_iff in K; exact K|]. intros g h Hg Hh. apply (P (g, h)). apply in_prod; assumption.
Qed.
Lemma completion (F : list poly) : Forall (zsorted nv lt) F -> exists G, Forall (zsorted nv lt) G /\ (forall f, qideal nv (pfs F) f <-> qideal nv (pfs G) f) /\ qgroebner nv lt G.
Proof.
  intros HF. pose proof (dickson nv (map lead F)) as A. remember (map lead F) as l eqn:El. revert F HF El. induction A as [l _ IH]. intros F HF ->. destruct (pairs_or F HF) as [P|(r & Zr & Qr & ND)].
  - exists F. split; [exact HF|]. split; [intros f; reflexivity|]. apply (q_buchberger nv lt MO F HF P).
  - destruct (IH (lead r :: map lead F)) with (F := r :: F) as (G & ZG & SG & GB).
    + exists (lead r). split; [reflexivity|]. intros y Hy K. apply in_map_iff in Hy as (x & <- & Hx). apply (ND x Hx). apply K; [|apply (z_len nv lt r Zr)]. rewrite Forall_forall in HF. apply (z_len nv lt x (HF x Hx)).
    + constructor; assumption.
    + reflexivity.
    + exists G. split; [exact ZG|]. split; [|exact GB]. intros f. rewrite <- (SG f). split; apply qideal_sub.
      * intros g Hg. apply qideal_self. right. exact Hg.
      * intros g [<-|Hg]; [exact Qr|apply qideal_self; exact Hg].
Qed.

(** * Reduction *)
Lemma q_cover (H G : list poly) : Forall (zsorted nv lt) H -> Forall (zsorted nv lt) G -> (forall g, In g G -> qideal nv (pfs H) (cf g)) ->
  (forall f m, qideal nv (pfs H) f -> is_lead nv lt 0 f m -> exists g, In g G /\ mdvd (lead g) m) -> (forall f, qideal nv (pfs H) f <-> qideal nv (pfs G) f) /\ qgroebner nv lt G.
Proof.
  intros HH HG Sub Cov. assert (S2 := qideal_sub G H Sub). assert (S1 : forall f, qideal nv (pfs H) f -> qideal nv (pfs G) f).
  { intros f Hf. destruct (qideal_fin H f HH Hf) as (d & D & Fd). apply (qideal_unscale _ d f D). destruct (fin_lead _ Fd) as [K|(m & HL)]; [apply qideal_of; apply lspan_zero; intros m Lm; rewrite (K m Lm); reflexivity|].
    destruct (full_rem G HG m (proj1 HL) _ Fd HL) as (e & r & Ne & HS & Sr & Q). destruct Sr as [->|Sr].
    - apply (qideal_unscale _ e _ Ne). apply (qideal_ext _ _ _ (qideal_of _ _ HS)). intros x _. cbn [cf]. ring.
    - exfalso. destruct (Cov (cf r) (lead r)) as (g & Hg & Dv); [|apply (z_is_lead nv lt MO); exact Sr|].
      + apply (qideal_ext _ (fun x => (e * d) * f x - 1 * (e * (d * f x) - cf r x))); [|intros x _; ring]. apply qideal_lin; [exact Hf|]. apply S2. apply qideal_of. exact HS.
      + destruct r as [|s r]; [destruct Sr; congruence|]. apply (proj2 (Q s (or_introl eq_refl)) g Hg). exact Dv. }
  split; [intros f; split; auto|]. intros f m Hf HL. apply (Cov f m (S2 f Hf) HL).
Qed.
Lemma minimize (G : list poly) : Forall (zsorted nv lt) G -> exists G', incl G' G /\ (forall g, In g G -> exists g', In g' G' /\ mdvd (lead g') (lead g)) /\ NoDup (map lead G') /\ forall g h, In g G' -> In h G' -> mdvd (lead g) (lead h) -> lead g = lead h.
Proof.
  intros HG. induction HG as [|g G Hg HG IH]; [exists []; repeat split; [intros x []|intros g []|constructor|intros g h []]|]. destruct IH as (G' & I1 & I2 & I3 & I4).
  assert (HG' : Forall (zsorted nv lt) G') by (apply Forall_forall; intros x Hx; rewrite Forall_forall in HG; apply HG; apply I1; exact Hx).
  destruct (z_len nv lt g Hg) as (Lg & _). destruct (cover_dec G' (lead g) Lg HG') as [(g' & Hg' & D)|N].
  - exists G'. split; [intros x Hx; right; apply I1; exact Hx|]. split; [|split; assumption]. intros x [<-|Hx]; [exists g'; auto|auto].
  - set (G2 := filter (fun h => negb (mdvdb (lead g) (lead h))) G'). assert (F2 : forall h, In h G2 <-> In h G' /\ ~ mdvd (lead g) (lead h)).
    { intros h. unfold G2. rewrite filter_In. split; intros [A B]; (split; [exact A|]); rewrite Forall_forall in HG'; destruct (z_len nv lt h (HG' h A)) as (Lh & _).
      - intros K. apply mdvdb_iff in K; [|congruence]. rewrite K in B. discriminate.
      - destruct (mdvdb (lead g) (lead h)) eqn:E; [|reflexivity]. elim B. apply mdvdb_iff; congruence. }
    exists (g :: G2). split; [|split; [|split]].
    + intros x [<-|Hx]; [left; reflexivity|right; apply I1; apply F2; exact Hx].
    + intros x [<-|Hx]; [exists g; split; [left; reflexivity|apply mdvd_refl]|]. destruct (I2 x Hx) as (g' & Hg' & D). destruct (mdvdb (lead g) (lead g')) eqn:E.
      * exists g. split; [left; reflexivity|]. rewrite Forall_forall in HG'. destruct (z_len nv lt g' (HG' g' Hg')) as (Lg' & _). apply mdvdb_iff in E; [|congruence]. eapply mdvd_trans; eassumption.
      * exists g'. split; [right; unfold G2; apply filter_In; split; [exact Hg'|rewrite E; reflexivity]|exact D].
    + cbn [map]. constructor.
      * intros K. apply in_map_iff in K as (x & Ex & Hx). apply F2 in Hx as [Hx _]. apply (N x Hx). rewrite Ex. apply mdvd_refl.
      * clear -I3. unfold G2. clear G2. induction G' as [|h G' IH]; cbn [filter map]; [constructor|]. cbn [map] in I3. inversion I3 as [|? ? A B]; subst. destruct (negb (mdvdb (lead g) (lead h))); [|apply IH; exact B]. cbn [map]. constructor; [|apply IH; exact B]. intros K. apply A. apply in_map_iff in K as (x & <- & Hx). apply filter_In in Hx as [Hx _]. apply in_map. exact Hx.
    + intros x y [<-|Hx] [<-|Hy] D; [reflexivity|apply F2 in Hy as [_ Hy]; contradiction|apply F2 in Hx as [Hx _]; elim (N x Hx D)|]. apply F2 in Hx as [Hx _]. apply F2 in Hy as [Hy _]. auto.
Qed.
Lemma insert_lead (g : poly) G : zsorted nv lt g -> Forall (zsorted nv lt) G -> ~ In (lead g) (map lead G) -> ForallOrdPairs (fun f h => lt (lead f) (lead h)) G ->
  exists G', Permutation (g :: G) G' /\ ForallOrdPairs (fun f h => lt (lead f) (lead h)) G'.
Proof.
  intros Zg HG NI HS. induction HS as [|h G H1 H2 IH]; [exists [g]; split; [reflexivity|constructor; constructor]|]. inversion HG as [|? ? Zh HG']; subst. destruct (z_len nv lt g Zg) as (Lg & _). destruct (z_len nv lt h Zh) as (Lh & _).
  destruct (lt_tot nv lt MO (lead g) (lead h) Lg Lh) as [C|[C|C]].
  - exists (g :: h :: G). split; [reflexivity|]. constructor; [|constructor; assumption]. constructor; [exact C|]. rewrite Forall_forall in *. intros x Hx. destruct (z_len nv lt x (HG' x Hx)) as (Lx & _). apply (lt_tr nv lt MO _ (lead h)); auto.
  - elim NI. left. congruence.
  - destruct (IH HG') as (G' & PG & OG); [intros K; apply NI; right; exact K|]. exists (h :: G'). split; [rewrite perm_swap; constructor; exact PG|]. constructor; [|exact OG]. apply Forall_forall. intros x Hx. apply Permutation_in with (l' := g :: G) in Hx; [|symmetry; exact PG]. destruct Hx as [<-|Hx]; [exact C|]. rewrite Forall_forall in H1. auto.
Qed.
Lemma sort_lead (G : list poly) : Forall (zsorted nv lt) G -> NoDup (map lead G) -> exists G', Permutation G G' /\ ForallOrdPairs (fun f h => lt (lead f) (lead h)) G'.
Proof.
  intros HG. induction HG as [|g G Hg HG IH]; intros ND; [exists []; split; constructor|]. cbn [map] in ND. inversion ND as [|? ? NI ND']; subst. destruct (IH ND') as (G1 & P1 & O1). destruct (insert_lead g G1) as (G2 & P2 & O2); [exact Hg|rewrite <- P1; exact HG|rewrite <- P1; exact NI|exact O1|]. exists G2. split; [rewrite P1; exact P2|exact O2].
Qed.
Lemma tail_red (G : list poly) g : Forall (zsorted nv lt) G -> In g G -> exists g', zsorted nv lt g' /\ lead g' = lead g /\ qideal nv (pfs G) (cf g') /\ forall s, In s (tl g') -> forall h, In h G -> ~ mdvd (lead h) (snd s).
Proof.
  intros HG Hg. pose proof HG as HG'. rewrite Forall_forall in HG'. pose proof (HG' g Hg) as Zg. destruct g as [|s g]; [destruct Zg; congruence|]. destruct (z_rest nv lt s g Zg) as [->|Zr].
  - exists [s]. split; [exact Zg|]. split; [reflexivity|]. split; [apply qideal_self; exact Hg|intros x []].
  - destruct (z_len nv lt _ Zr) as (Ll & _ & LE). destruct (full_rem G HG (lead g) Ll (cf g) (fin_cf g LE) (z_is_lead nv lt MO g Zr)) as (d & r & Nd & HS & Sr & Q).
    pose proof (proj1 (proj2 Zg) s (or_introl eq_refl)) as [Ns Ls].
    assert (BM : forall x, In x r -> lt (snd x) (snd s)). { intros x Hx. destruct g as [|s' g]; [destruct Zr; congruence|]. pose proof (z_tail nv lt s (s' :: g) Zg s' (or_introl eq_refl)) as T. destruct (Q x Hx) as [[E|E] _]; [rewrite E; exact T|]. apply (lt_tr nv lt MO _ (lead (s' :: g))); auto. destruct Sr as [->|(_ & Sr & _)]; [destruct Hx|]. apply (Sr x Hx). }
    exists ((d * fst s, snd s) :: r). split; [|split; [reflexivity|split]].
    + split; [discriminate|]. split.
      * intros t [<-|Ht]; cbn [fst snd]; [split; [intros K; apply Z.mul_eq_0 in K; lia|exact Ls]|]. destruct Sr as [->|(_ & Sr & _)]; [destruct Ht|]. apply (Sr t Ht).
      * intros [|i] [|j] x t Hi Hj Hij; try lia; cbn [nth_error] in Hi, Hj; [injection Hi as <-; cbn [snd]; apply BM; apply nth_error_In with (1 := Hj)|]. destruct Sr as [->|(_ & _ & Sr)]; [destruct i; discriminate|]. apply (Sr i j); auto. lia.
    + apply (qideal_ext _ (fun x => d * cf (s :: g) x - 1 * (d * cf g x - cf r x))); [apply qideal_lin; [apply qideal_self; exact Hg|apply qideal_of; exact HS]|]. intros x _. destruct s as [a m]. cbn [cf fst snd]. destruct (mono_dec m x); ring.
    + cbn [tl]. intros x Hx. apply (Q x Hx).
Qed.
Lemma tails_red (G : list poly) : Forall (zsorted nv lt) G -> forall l, incl l G -> exists l', map lead l' = map lead l /\ Forall (fun g' => zsorted nv lt g' /\ qideal nv (pfs G) (cf g') /\ forall s, In s (tl g') -> forall h, In h G -> ~ mdvd (lead h) (snd s)) l'.
Proof.
  intros HG l. induction l as [|g l IH]; intros I; [exists []; split; [reflexivity|constructor]|]. destruct IH as (l' & E & H); [intros x Hx; apply I; right; exact Hx|]. destruct (tail_red G g HG (I g (or_introl eq_refl))) as (g' & A & B & C & D). exists (g' :: l'). split; [cbn [map]; congruence|]. constructor; [auto|exact H].
Qed.
Lemma ford_index {A} (R : A -> A -> Prop) l i j x y : ForallOrdPairs R l -> nth_error l i = Some x -> nth_error l j = Some y -> i <> j -> R x y \/ R y x.
Proof.
  intros H. revert i j. induction H as [|a l H1 H2 IH]; intros [|i] [|j] Hi Hj Hij; cbn in Hi, Hj; try discriminate; try (elim Hij; reflexivity).
  - injection Hi as <-. left. rewrite Forall_forall in H1. apply H1. eapply nth_error_In; eassumption.
  - injection Hj as <-. right. rewrite Forall_forall in H1. apply H1. eapply nth_error_In; eassumption.
  - apply (IH i j); auto.
Qed.
Lemma ford_map {A B} (f : A -> B) (R : B -> B -> Prop) l : ForallOrdPairs (fun x y => R (f x) (f y)) l <-> ForallOrdPairs R (map f l).
Proof.
  induction l as [|a l IH]; cbn [map]; [split; constructor|]. split; intros H; inversion H as [|? ? H1 H2]; subst; constructor; try (apply IH; assumption); rewrite Forall_forall in *.
  - intros y Hy. apply in_map_iff in Hy as (x & <- & Hx). auto.
  - intros x Hx. apply H1. apply in_map. exact Hx.
Qed.
Theorem qbasis_exists (F : list poly) : Forall (zsorted nv lt) F -> exists G, qbasis nv lt F G.
Proof.
  intros HF. destruct (completion F HF) as (G & ZG & SG & GB). destruct (minimize G ZG) as (G1 & I1 & I2 & I3 & I4).
  assert (Z1 : Forall (zsorted nv lt) G1) by (apply Forall_forall; intros x Hx; rewrite Forall_forall in ZG; apply ZG; apply I1; exact Hx).
  destruct (sort_lead G1 Z1 I3) as (G2 & PG & OG). assert (Z2 : Forall (zsorted nv lt) G2) by (rewrite <- PG; exact Z1).
  destruct (q_cover G G2 ZG Z2) as [S2 GB2].
  { intros g Hg. apply qideal_self. apply I1. apply Permutation_in with (l := G2); [symmetry; exact PG|exact Hg]. }
  { intros f m Hf HL. destruct (GB f m Hf HL) as (g & Hg & D). destruct (I2 g Hg) as (g' & Hg' & D'). exists g'. split; [apply Permutation_in with (l := G1); assumption|eapply mdvd_trans; eassumption]. }
  destruct (tails_red G2 Z2 G2 (fun x H => H)) as (G3 & E3 & H3). rewrite Forall_forall in H3.
  assert (Z3 : Forall (zsorted nv lt) G3) by (apply Forall_forall; intros x Hx; apply (H3 x Hx)).
  destruct (q_cover G2 G3 Z2 Z3) as [S3 GB3].
  { intros g Hg. apply (H3 g Hg). }
  { intros f m Hf HL. destruct (GB2 f m Hf HL) as (g & Hg & D). apply (in_map lead) in Hg. rewrite <- E3 in Hg. apply in_map_iff in Hg as (g' & E & Hg'). exists g'. split; [exact Hg'|]. rewrite E. exact D. }
  assert (LD : forall x, In x G3 -> exists y, In y G2 /\ lead y = lead x). { intros x Hx. apply (in_map lead) in Hx. rewrite E3 in Hx. apply in_map_iff in Hx as (y & E & Hy). exists y. split; auto. }
  assert (O3 : ForallOrdPairs (fun f g => lt (lead f) (lead g)) G3) by (apply (ford_map lead); rewrite E3; apply (proj1 (ford_map lead lt G2)); exact OG).
  exists G3. split; [exact Z3|]. split; [intros f; rewrite (SG f), (S2 f); apply S3|]. split; [exact GB3|]. split; [|exact O3].
  intros i j f g t Hi Hj Hij Ht D. pose proof (nth_error_In _ _ Hi) as If. pose proof (nth_error_In _ _ Hj) as Ig. destruct (LD f If) as (f2 & Hf2 & Ef). destruct (LD g Ig) as (g2 & Hg2 & Eg).
  destruct g as [|s g]; [destruct Ht|]. destruct Ht as [->|Ht]; [|apply (proj2 (proj2 (H3 _ Ig)) t Ht f2 Hf2); rewrite Ef; exact D].
  assert (E : lead f2 = lead g2). { apply I4; [apply Permutation_in with (l := G2); [symmetry; exact PG|exact Hf2]|apply Permutation_in with (l := G2); [symmetry; exact PG|exact Hg2]|]. rewrite Ef, Eg. exact D. }
  rewrite Ef, Eg in E. destruct (ford_index _ _ _ _ _ _ O3 Hi Hj Hij) as [K|K]; rewrite E in K; apply (lt_irr nv lt MO _ K).
Qed.
End E.
