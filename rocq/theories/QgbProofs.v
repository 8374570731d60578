(** Reduced Groebner bases over the rationals have reduced Groebner bases as images modulo all but finitely many primes. *)
From Coq Require Import ZArith NArith Arith List Bool Lia Znumtheory Setoid.
From Verif Require Import LinSpec MonoSpec MonoSpecProofs GbSpec GbProofs GbIdeal F4Rows F4Props QgbSpec.
Import ListNotations.
Open Scope Z_scope.
Notation poly := (list (Z * mono)) (only parsing).

Lemma eqp_zero a b : eqp 0 a b <-> a = b.
Proof. split; [intros [z H]; lia|intros ->; reflexivity]. Qed.
Lemma mul0 d x : d <> 0 -> d * x = 0 -> x = 0.
Proof. intros H E. apply Z.mul_eq_0 in E as [E|E]; [contradiction|exact E]. Qed.
Lemma inverse p a : prime p -> ~ (p | a) -> exists z, eqp p (z * a) 1.
Proof.
  intros Hp H. assert (R : rel_prime a p) by (apply rel_prime_sym; apply prime_rel_prime; assumption). apply rel_prime_bezout in R. destruct R as [u v E]. exists u. exists (- v). lia.
Qed.
Lemma lspan_mod nv p S f : lspan nv 0 S f -> lspan nv p S f.
Proof.
  induction 1 as [f H| |a f g Hf IHf Hg IHg|f g Hf IHf E]; [apply ls_in; exact H|apply ls_zero|apply ls_lin; assumption|]. eapply ls_eq; [exact IHf|]. intros m Lm. specialize (E m Lm). apply eqp_zero in E. rewrite E. reflexivity.
Qed.
Lemma lspan_unit nv p S d f : prime p -> ~ (p | d) -> lspan nv p S (fun m => d * f m) -> lspan nv p S f.
Proof.
  intros Hp H L. destruct (inverse p d Hp H) as [z Hz]. eapply ls_eq; [apply (lspan_scale nv p S z _ L)|]. intros m _. replace (z * (d * f m)) with (z * d * f m) by ring. rewrite Hz. rewrite Z.mul_1_l. reflexivity.
Qed.

(** finitely many conditions *)
Lemma common {A} (Q : Z -> A -> Prop) l : (forall x, In x l -> exists N, N <> 0 /\ forall p, prime p -> ~ (p | N) -> Q p x) -> exists N, N <> 0 /\ forall p, prime p -> ~ (p | N) -> forall x, In x l -> Q p x.
Proof.
  induction l as [|x l IH]; intros H; [exists 1; split; [lia|intros p _ _ x []]|]. destruct (H x (or_introl eq_refl)) as (N1 & Z1 & H1). destruct IH as (N2 & Z2 & H2); [intros y Hy; apply H; right; exact Hy|].
  exists (N1 * N2). split; [intros K; apply Z.mul_eq_0 in K; lia|]. intros p Hp D. assert (D1 : ~ (p | N1)) by (intros K; apply D; apply Z.divide_mul_l; exact K). assert (D2 : ~ (p | N2)) by (intros K; apply D; apply Z.divide_mul_r; exact K). intros y [<-|Hy]; auto.
Qed.

Lemma prime_div n : 1 < n -> exists p, prime p /\ (p | n).
Proof.
  intros H. assert (A : forall k n, 1 < n -> (Z.to_nat n <= k)%nat -> exists p, prime p /\ (p | n)); [|apply (A (Z.to_nat n) n H); lia]. clear n H.
  induction k as [|k IH]; intros n H L; [lia|]. destruct (prime_dec n) as [P|P]; [exists n; split; [exact P|apply Z.divide_refl]|]. apply not_prime_divide in P; [|exact H]. destruct P as (q & Hq & Dq). destruct (IH q) as (p & Pp & Dp); [lia|lia|]. exists p. split; [exact Pp|]. apply (Z.divide_trans _ q); assumption.
Qed.
Lemma fresh_prime M : M <> 0 -> exists p, prime p /\ ~ (p | M).
Proof.
  intros H. destruct (prime_div (Z.abs M + 1)) as (p & Pp & D); [lia|]. exists p. split; [exact Pp|]. intros K. apply Z.divide_abs_r in K. assert (D1 : (p | 1)) by (replace 1 with (Z.abs M + 1 - Z.abs M) by ring; apply Z.divide_sub_r; assumption). destruct Pp as [P1 _]. apply Z.divide_pos_le in D1; lia.
Qed.

Section Q.
Variables (nv : nat) (lt : mono -> mono -> Prop).
Hypothesis MO : mono_order nv lt.

Lemma z_tail (t : Z * mono) (f : poly) : zsorted nv lt (t :: f) -> forall s, In s f -> lt (snd s) (snd t).
Proof. intros (_ & _ & H) s Hs. apply In_nth_error in Hs as (j & Hj). apply (H O (S j) t s); [reflexivity|exact Hj|lia]. Qed.
Lemma z_rest (t : Z * mono) (f : poly) : zsorted nv lt (t :: f) -> f = [] \/ zsorted nv lt f.
Proof. intros (_ & H1 & H2). destruct f as [|s f]; [left; reflexivity|]. right. split; [discriminate|]. split; [intros u Hu; apply H1; right; exact Hu|]. intros i j u v Hi Hj Hij. apply (H2 (S i) (S j)); auto. lia. Qed.
Lemma z_len f : zsorted nv lt f -> length (lead f) = nv /\ lcoef f <> 0 /\ lens nv f.
Proof. intros (N & H & _). destruct f as [|t f]; [congruence|]. split; [apply (H t); left; reflexivity|]. split; [apply (H t); left; reflexivity|]. intros s Hs. apply H. exact Hs. Qed.
Lemma z_nodup (f : poly) : f = [] \/ zsorted nv lt f -> NoDup (map snd f).
Proof.
  induction f as [|t f IH]; intros H; [constructor|]. destruct H as [|H]; [discriminate|]. cbn [map]. constructor.
  - intros K. apply in_map_iff in K as (s & E & Hs). pose proof (z_tail t f H s Hs) as L. rewrite E in L. apply (lt_irr nv lt MO _ L).
  - apply IH. apply (z_rest t). exact H.
Qed.
Lemma z_cf f t : zsorted nv lt f -> In t f -> cf f (snd t) = fst t.
Proof. intros H. apply cf_nodup. apply z_nodup. right. exact H. Qed.
Lemma z_lead f : zsorted nv lt f -> cf f (lead f) = lcoef f /\ forall m, length m = nv -> lt (lead f) m -> cf f m = 0.
Proof.
  intros H. destruct f as [|t f]; [destruct H; congruence|]. split; [apply (z_cf (t :: f) t H); left; reflexivity|]. intros m Lm L. cbn [lead] in L. apply cf_not_in. intros s [<-|Hs] E.
  - rewrite E in L. apply (lt_irr nv lt MO _ L).
  - pose proof (z_tail t f H s Hs) as K. rewrite E in K. apply (lt_irr nv lt MO m). apply (lt_tr nv lt MO _ (snd t)); auto. apply (proj1 (proj2 H) t). left. reflexivity.
Qed.
Lemma z_is_lead f : zsorted nv lt f -> is_lead nv lt 0 (cf f) (lead f).
Proof. intros H. destruct (z_lead f H) as [A B]. destruct (z_len f H) as (L & N & _). split; [exact L|]. rewrite A. split; [intros K; apply eqp_zero in K; contradiction|]. intros m Lm K. rewrite (B m Lm K). reflexivity. Qed.

(** * The image of one polynomial *)
Definition imgl (p z : Z) (g : poly) : poly := filter (fun t => negb (fst t =? 0)) (map (fun t => ((z * fst t) mod p, snd t)) g).
Lemma imgl_in p z g s : 1 < p -> In s (imgl p z g) -> 0 < fst s < p /\ exists t, In t g /\ snd t = snd s.
Proof.
  intros Hp H. apply filter_In in H as [H N]. apply in_map_iff in H as (t & <- & Ht). cbn [fst snd] in *. split; [|exists t; auto]. apply negb_true_iff in N. apply Z.eqb_neq in N. pose proof (Z.mod_pos_bound (z * fst t) p). lia.
Qed.
Lemma imgl_cf p z g m : 1 < p -> eqp p (cf (imgl p z g) m) (z * cf g m).
Proof.
  intros Hp. unfold imgl. induction g as [|t g IH]; [cbn; exists 0; lia|]. cbn [map filter fst snd cf]. destruct (Z.eqb_spec ((z * fst t) mod p) 0) as [E|E]; cbn [negb].
  - rewrite IH. destruct (mono_dec (snd t) m); [|reflexivity]. assert (K : eqp p (z * fst t) 0) by (rewrite <- (eqp_mod p (z * fst t)) by lia; rewrite E; reflexivity). replace (z * (fst t + cf g m)) with (z * fst t + z * cf g m) by ring. rewrite K. reflexivity.
  - cbn [cf fst snd]. destruct (mono_dec (snd t) m); [|exact IH]. rewrite IH, eqp_mod by lia. replace (z * (fst t + cf g m)) with (z * fst t + z * cf g m) by ring. reflexivity.
Qed.
Lemma imgl_sorted p z g : 1 < p -> g = [] \/ zsorted nv lt g -> imgl p z g = [] \/ sorted_poly nv lt p (imgl p z g).
Proof.
  intros Hp. induction g as [|t g IH]; intros H; [left; reflexivity|]. destruct H as [|H]; [discriminate|]. specialize (IH (z_rest t g H)). unfold imgl in *. cbn [map filter fst snd]. destruct (Z.eqb_spec ((z * fst t) mod p) 0) as [E|E]; cbn [negb]; [exact IH|].
  right. apply sp_cons; auto.
  - cbn [fst]. pose proof (Z.mod_pos_bound (z * fst t) p). lia.
  - cbn [snd]. apply (proj1 (proj2 H) t). left. reflexivity.
  - intros s Hs. destruct (imgl_in p z g s Hp Hs) as (_ & u & Hu & <-). cbn [snd]. apply (z_tail t g H u Hu).
Qed.
Lemma monic_image_ex p g : prime p -> zsorted nv lt g -> ~ (p | lcoef g) -> exists f, monic_image nv lt p g f.
Proof.
  intros Pp H D. assert (Hp : 1 < p) by (destruct Pp; assumption). destruct (inverse p (lcoef g) Pp D) as [z Hz]. exists (imgl p z g). destruct g as [|t g]; [destruct H; congruence|]. cbn [lcoef] in *.
  assert (E1 : (z * fst t) mod p = 1) by (apply (eqp_iff_mod p) in Hz; [|lia]; rewrite Hz; apply Z.mod_small; lia).
  assert (E : imgl p z (t :: g) = (1, snd t) :: imgl p z g) by (unfold imgl; cbn [map filter fst snd]; rewrite E1; reflexivity).
  split; [destruct (imgl_sorted p z (t :: g) Hp (or_intror H)) as [K|K]; [rewrite E in K; discriminate|exact K]|]. split; [exists (imgl p z g); exact E|].
  intros m Lm. rewrite imgl_cf by exact Hp. replace (lcoef (t :: g) * (z * cf (t :: g) m)) with (z * fst t * cf (t :: g) m) by (cbn [lcoef]; ring). rewrite Hz, Z.mul_1_l. reflexivity.
Qed.
Lemma monic_images_ex p G : prime p -> Forall (zsorted nv lt) G -> (forall g, In g G -> ~ (p | lcoef g)) -> exists Gp, Forall2 (monic_image nv lt p) G Gp.
Proof.
  intros Pp H D. induction H as [|g G Hg H IH]; [exists []; constructor|]. destruct IH as [Gp F]; [intros x Hx; apply D; right; exact Hx|]. destruct (monic_image_ex p g Pp Hg (D g (or_introl eq_refl))) as [f Hf]. exists (f :: Gp). constructor; assumption.
Qed.

(** * Division over the rationals, denominators cleared *)
Definition zbelow (G : list poly) (t : mono) (h : pf) : Prop := exists u g, In g G /\ length u = nv /\ lt (mmul u (lead g)) t /\ h = pmul u (cf g).
Lemma qideal_lin G a b f g : qideal nv G f -> qideal nv G g -> qideal nv G (fun m => a * f m - b * g m).
Proof.
  intros (d & D & Hf) (e & E & Hg). exists (d * e). split; [intros K; apply Z.mul_eq_0 in K; lia|]. unfold ideal in *. eapply lspan_ext; [apply lspan_sub; [apply (lspan_scale _ _ _ (e * a) _ Hf)|apply (lspan_scale _ _ _ (d * b) _ Hg)]|]. intros m _. cbn beta. ring.
Qed.
Lemma qideal_gen G u g : In g G -> length u = nv -> qideal nv (pfs G) (pmul u (cf g)).
Proof.
  intros Hg Lu. exists 1. split; [lia|]. unfold ideal. eapply lspan_ext; [apply ls_in; exists u, (cf g); split; [exact Lu|]; split; [exists g; split; [exact Hg|reflexivity]|reflexivity]|]. intros m _. ring.
Qed.
Lemma qideal_lead G f : Forall (zsorted nv lt) G -> qideal nv (pfs G) f -> (forall m, length m = nv -> f m = 0) \/ exists m, is_lead nv lt 0 f m.
Proof.
  intros HG (d & D & Hf). destruct (ideal_finite nv 0 G _ ltac:(eapply Forall_impl; [|exact HG]; intros g Hg; apply (z_len g Hg)) Hf) as (h & L & E).
  assert (E' : forall m, length m = nv -> d * f m = cf h m) by (intros m Lm; apply eqp_zero; apply E; exact Lm).
  destruct (lead_exists nv lt 0 MO h L) as [K|(m & L1 & L2 & L3)].
  - left. intros m Lm. specialize (K m Lm). apply eqp_zero in K. specialize (E' m Lm). unfold pzero in K. apply (mul0 d _ D). rewrite E'. exact K.
  - right. exists m. split; [exact L1|]. split; [intros K; apply L2; apply eqp_zero; apply eqp_zero in K; rewrite <- E' by exact L1; rewrite K; ring|]. intros m' Lm' Hm'. apply eqp_zero. specialize (L3 m' Lm' Hm'). apply eqp_zero in L3. specialize (E' m' Lm'). apply (mul0 d _ D). rewrite E'. exact L3.
Qed.
Lemma q_divide (G : list poly) t : Forall (zsorted nv lt) G -> qgroebner nv lt G -> length t = nv ->
  forall m, length m = nv -> forall f, lt m t -> qideal nv (pfs G) f -> is_lead nv lt 0 f m -> exists d, d <> 0 /\ lspan nv 0 (zbelow G t) (fun x => d * f x).
Proof.
  intros HG GB Lt m Lm. pose proof (mo_wf nv lt MO m Lm) as A. induction A as [m _ IH]. intros f Hlt Hf HL. destruct (GB f m Hf HL) as (g & Hg & Dv). rewrite Forall_forall in HG. pose proof (HG g Hg) as Zg. destruct (z_len g Zg) as (Lg & Ng & _).
  set (u := mquo m (lead g)). assert (Lu : length u = nv) by (unfold u; rewrite mquo_length; lia). assert (Eu : mmul u (lead g) = m) by (unfold u; rewrite mmul_comm by (rewrite mquo_length; lia); apply (mul_quo nv); assumption).
  assert (B : zbelow G t (pmul u (cf g))) by (exists u, g; split; [exact Hg|]; split; [exact Lu|]; split; [rewrite Eu; exact Hlt|reflexivity]).
  set (f' := fun x => lcoef g * f x - f m * pmul u (cf g) x). assert (Hf' : qideal nv (pfs G) f') by (apply qideal_lin; [exact Hf|apply qideal_gen; assumption]).
  assert (Am : f' m = 0). { unfold f'. rewrite <- Eu at 3. rewrite (pmul_at nv) by assumption. rewrite (proj1 (z_lead g Zg)). ring. }
  assert (Ab : forall x, length x = nv -> lt m x -> f' x = 0).
  { intros x Lx Hx. unfold f'. destruct HL as (_ & _ & H3). specialize (H3 x Lx Hx). apply eqp_zero in H3. rewrite H3. assert (Z0 : pmul u (cf g) x = 0); [|rewrite Z0; ring].
    destruct (pmul_cases nv u (cf g) x Lu Lx) as [(n & Ln & -> & E)|(_ & E)]; rewrite E; [|reflexivity]. apply (proj2 (z_lead g Zg)); [exact Ln|]. apply (lt_mul_inv nv lt MO _ _ u); auto. rewrite Eu. exact Hx. }
  assert (FG : Forall (zsorted nv lt) G) by (apply Forall_forall; exact HG).
  destruct (qideal_lead G f' FG Hf') as [K|(m' & HL')].
  - exists (lcoef g). split; [exact Ng|]. eapply lspan_ext; [apply (lspan_scale _ _ _ (f m) _ (ls_in _ _ _ _ B))|]. intros x Lx. specialize (K x Lx). apply -> Z.sub_move_0_r. exact K.
  - assert (Lm' : length m' = nv) by apply HL'. assert (Hm' : lt m' m).
    { destruct (lt_tot nv lt MO m' m Lm' Lm) as [C|[C|C]]; [exact C|exfalso|exfalso]; destruct HL' as (_ & N & _); apply N; apply eqp_zero; [rewrite C; exact Am|apply Ab; assumption]. }
    destruct (IH m' (conj Lm' (conj Lm Hm')) Lm' f' (lt_tr nv lt MO _ _ _ Lm' Lm Lt Hm' Hlt) Hf' HL') as (d & Nd & Hd). exists (d * lcoef g). split; [intros K; apply Z.mul_eq_0 in K; lia|].
    eapply lspan_ext; [apply (lspan_add _ _ _ _ _ Hd (lspan_scale _ _ _ (d * f m) _ (ls_in _ _ _ _ B)))|]. intros x _. cbn beta. unfold f'. ring.
Qed.

Definition zspol (t : mono) (g h : poly) : pf := fun m => lcoef h * pmul (mquo t (lead g)) (cf g) m - lcoef g * pmul (mquo t (lead h)) (cf h) m.
Definition zpair (G : list poly) (g h : poly) : Prop := exists d, d <> 0 /\ lspan nv 0 (zbelow G (mlcm (lead g) (lead h))) (fun m => d * zspol (mlcm (lead g) (lead h)) g h m).
Lemma z_mul_lead g u : zsorted nv lt g -> length u = nv -> pmul u (cf g) (mmul u (lead g)) = lcoef g /\ forall m, length m = nv -> lt (mmul u (lead g)) m -> pmul u (cf g) m = 0.
Proof.
  intros Zg Lu. destruct (z_len g Zg) as (Lg & _). destruct (z_lead g Zg) as [A B]. split; [rewrite (pmul_at nv) by assumption; exact A|]. intros m Lm H.
  destruct (pmul_cases nv u (cf g) m Lu Lm) as [(n & Ln & -> & E)|(_ & E)]; rewrite E; [|reflexivity]. apply B; [exact Ln|]. apply (lt_mul_inv nv lt MO _ _ u); auto.
Qed.
Lemma q_pair G g h : Forall (zsorted nv lt) G -> qgroebner nv lt G -> In g G -> In h G -> zpair G g h.
Proof.
  intros HG GB Hg Hh. pose proof HG as HG'. rewrite Forall_forall in HG'. pose proof (HG' g Hg) as Zg. pose proof (HG' h Hh) as Zh. destruct (z_len g Zg) as (Lg & _). destruct (z_len h Zh) as (Lh & _).
  unfold zpair. set (t := mlcm (lead g) (lead h)). assert (Lt : length t = nv) by (unfold t; rewrite mlcm_length; lia).
  assert (Ug : length (mquo t (lead g)) = nv) by (rewrite mquo_length; lia). assert (Uh : length (mquo t (lead h)) = nv) by (rewrite mquo_length; lia).
  assert (Eg : mmul (mquo t (lead g)) (lead g) = t) by (rewrite mmul_comm by lia; apply (mul_quo nv); try assumption; apply mlcm_dvd_l; lia).
  assert (Eh : mmul (mquo t (lead h)) (lead h) = t) by (rewrite mmul_comm by lia; apply (mul_quo nv); try assumption; apply mlcm_dvd_r; lia).
  assert (QS : qideal nv (pfs G) (zspol t g h)) by (apply qideal_lin; apply qideal_gen; assumption).
  destruct (z_mul_lead g _ Zg Ug) as [G1 G2]. destruct (z_mul_lead h _ Zh Uh) as [H1 H2]. rewrite Eg in G1, G2. rewrite Eh in H1, H2.
  destruct (qideal_lead G _ HG QS) as [K|(m & HL)].
  - exists 1. split; [lia|]. apply lspan_zero. intros m Lm. rewrite (K m Lm). reflexivity.
  - assert (Lm : length m = nv) by apply HL. assert (Hlt : lt m t).
    { destruct (lt_tot nv lt MO m t Lm Lt) as [C|[C|C]]; [exact C|exfalso|exfalso]; destruct HL as (_ & N & _); apply N; apply eqp_zero; unfold zspol; [rewrite C, G1, H1; ring|rewrite G2, H2 by assumption; ring]. }
    apply (q_divide G t HG GB Lt m Lm); assumption.
Qed.

(** * Modulo a prime *)
Section Mod.
Variable p : Z.
Hypothesis Pp : prime p.
Let Hp : 1 < p. Proof. destruct Pp. assumption. Qed.
Variables (G Gp : list poly).
Hypothesis HG : Forall (zsorted nv lt) G.
Hypothesis IM : Forall2 (monic_image nv lt p) G Gp.
Hypothesis LC : forall g, In g G -> ~ (p | lcoef g).

Lemma im_fwd g : In g G -> exists f, In f Gp /\ monic_image nv lt p g f.
Proof. clear -IM. induction IM as [|x y l l' H F IH]; intros []; [subst; exists y; split; [left; reflexivity|exact H]|]. destruct IH as (f & Hf & M); [assumption|assumption|]. exists f. split; [right; exact Hf|exact M]. Qed.
Lemma im_bwd f : In f Gp -> exists g, In g G /\ monic_image nv lt p g f.
Proof. clear -IM. induction IM as [|x y l l' H F IH]; intros []; [subst; exists x; split; [left; reflexivity|exact H]|]. destruct IH as (g & Hg & M); [assumption|assumption|]. exists g. split; [right; exact Hg|exact M]. Qed.
Lemma im_good g f : monic_image nv lt p g f -> good nv lt f /\ lm f = lead g.
Proof. intros (S1 & (r & E) & _). split; [apply (mpoly_good nv lt p); split; [exact S1|eauto]|rewrite E; reflexivity]. Qed.
Lemma im_pmul g f u : monic_image nv lt p g f -> length u = nv -> peq nv p (pmul u (cf g)) (fun m => lcoef g * pmul u (cf f) m).
Proof.
  intros (_ & _ & E) Lu m Lm. destruct (pmul_cases nv u (cf f) m Lu Lm) as [(n & Ln & -> & K)|(Nd & K)]; rewrite K.
  - rewrite (pmul_at nv) by assumption. rewrite (E n Ln). reflexivity.
  - rewrite (pmul_out nv) by assumption. rewrite Z.mul_0_r. reflexivity.
Qed.
Lemma below_mod t h : lspan nv 0 (zbelow G t) h -> lspan nv p (below nv lt Gp t) h.
Proof.
  intros H. apply (lspan_mod nv p) in H. eapply lspan_mono; [|exact H]. intros x (u & g & Hg & Lu & Hlt & ->). destruct (im_fwd g Hg) as (f & Hf & M). destruct (im_good g f M) as [_ El].
  eapply ls_eq; [|apply peq_sym; apply (im_pmul g f u M Lu)]. apply lspan_scale. apply ls_in. exists u, f. split; [exact Hf|]. split; [exact Lu|]. split; [rewrite El; exact Hlt|reflexivity].
Qed.
Lemma gens_mod h : ideal nv 0 (pfs G) h -> ideal nv p (pfs Gp) h.
Proof.
  intros H. apply (lspan_mod nv p) in H. unfold ideal. eapply lspan_mono; [|exact H]. intros x (u & g0 & Lu & (g & Hg & ->) & ->). destruct (im_fwd g Hg) as (f & Hf & M).
  eapply ls_eq; [|apply peq_sym; apply (im_pmul g f u M Lu)]. apply lspan_scale. apply ls_in. exists u, (cf f). split; [exact Lu|]. split; [exists f; split; [exact Hf|reflexivity]|reflexivity].
Qed.
Lemma mod_groebner : (forall g h, In g G -> In h G -> exists d, ~ (p | d) /\ lspan nv 0 (zbelow G (mlcm (lead g) (lead h))) (fun m => d * zspol (mlcm (lead g) (lead h)) g h m)) -> groebner nv lt p (pfs Gp).
Proof.
  intros HP. assert (FG : Forall (good nv lt) Gp) by (apply Forall_forall; intros f Hf; destruct (im_bwd f Hf) as (g & _ & M); apply (im_good g f M)).
  apply (buchberger_groebner nv lt p MO (P1 p Hp)); [exact FG|]. intros f1 f2 H1 H2. destruct (im_bwd f1 H1) as (g & Hg & Mg). destruct (im_bwd f2 H2) as (h & Hh & Mh). destruct (im_good g f1 Mg) as [_ E1]. destruct (im_good h f2 Mh) as [_ E2].
  destruct (HP g h Hg Hh) as (d & Nd & K). apply below_mod in K. unfold D, Rep. rewrite E1, E2. set (t := mlcm (lead g) (lead h)) in *.
  rewrite Forall_forall in HG. destruct (z_len g (HG g Hg)) as (Lg & _). destruct (z_len h (HG h Hh)) as (Lh & _). assert (Lt : length t = nv) by (unfold t; rewrite mlcm_length; lia).
  assert (Ug : length (mquo t (lead g)) = nv) by (rewrite mquo_length; lia). assert (Uh : length (mquo t (lead h)) = nv) by (rewrite mquo_length; lia).
  apply (lspan_unit nv p _ (d * (lcoef g * lcoef h)) _ Pp).
  - intros Dv. apply prime_mult in Dv as [Dv|Dv]; [exact (Nd Dv)| |exact Pp]. apply prime_mult in Dv as [Dv|Dv]; [exact (LC g Hg Dv)|exact (LC h Hh Dv)|exact Pp].
  - eapply ls_eq; [exact K|]. intros m Lm. unfold zspol, spol. rewrite E1, E2. rewrite (im_pmul g f1 _ Mg Ug m Lm), (im_pmul h f2 _ Mh Uh m Lm).
    match goal with |- eqp p ?x ?y => replace y with x by ring end. reflexivity.
Qed.
Lemma mod_ideal F Fp : Forall2 (image nv lt p) F Fp -> (forall f, In f F -> exists d, ~ (p | d) /\ ideal nv 0 (pfs G) (fun m => d * cf f m)) ->
  (forall g, In g G -> exists d, ~ (p | d) /\ ideal nv 0 (pfs F) (fun m => d * cf g m)) -> same_ideal nv p (pfs Fp) (pfs Gp).
Proof.
  intros IF H1 H2. assert (FW : forall f, In f F -> exists f', In f' Fp /\ image nv lt p f f'). { clear -IF. induction IF as [|x y l l' H F0 IH]; intros f []; [subst; exists y; split; [left; reflexivity|exact H]|]. destruct (IH f) as (f' & Hf & M); [assumption|]. exists f'. split; [right; exact Hf|exact M]. }
  assert (BW : forall f, In f Fp -> exists g, In g F /\ image nv lt p g f). { clear -IF. induction IF as [|x y l l' H F0 IH]; intros f []; [subst; exists x; split; [left; reflexivity|exact H]|]. destruct (IH f) as (g & Hg & M); [assumption|]. exists g. split; [right; exact Hg|exact M]. }
  apply same_ideal_intro.
  - intros x (f' & Hf' & ->). destruct (BW f' Hf') as (f & Hf & _ & E). destruct (H1 f Hf) as (d & Nd & K). apply gens_mod in K. unfold ideal in *. apply (lspan_unit nv p _ d _ Pp Nd). eapply ls_eq; [exact K|]. intros m Lm. rewrite (E m Lm). reflexivity.
  - intros x (f' & Hf' & ->). destruct (im_bwd f' Hf') as (g & Hg & M). destruct (H2 g Hg) as (d & Nd & K). apply (lspan_mod nv p) in K. unfold ideal in *. apply (lspan_unit nv p _ d _ Pp Nd). apply (lspan_unit nv p _ (lcoef g) _ Pp (LC g Hg)).
    assert (K2 : lspan nv p (multiple nv (pfs Fp)) (fun m => d * cf g m)).
    { eapply lspan_mono; [|exact K]. intros y (u & f0 & Lu & (f & Hf & ->) & ->). destruct (FW f Hf) as (f2 & Hf2 & _ & E). eapply ls_eq; [apply ls_in; exists u, (cf f2); split; [exact Lu|]; split; [exists f2; split; [exact Hf2|reflexivity]|reflexivity]|]. apply pmul_peq; [exact Lu|]. apply peq_sym. exact E. }
    eapply ls_eq; [exact K2|]. intros m Lm. destruct M as (_ & _ & E). rewrite <- (E m Lm). match goal with |- eqp p ?x ?y => replace y with x by ring end. reflexivity.
Qed.
Lemma mod_reduced : (forall i j f g t, nth_error G i = Some f -> nth_error G j = Some g -> i <> j -> In t g -> ~ mdvd (lead f) (snd t)) -> reduced_basis nv lt p Gp.
Proof.
  intros R. assert (NT : forall i f, nth_error Gp i = Some f -> exists g, nth_error G i = Some g /\ monic_image nv lt p g f).
  { clear -IM. induction IM as [|x y l l' H F IH]; intros [|i] f E; cbn in E; try discriminate; [injection E as <-; exists x; split; [reflexivity|exact H]|]. apply IH; assumption. }
  split.
  - intros f Hf. destruct (im_bwd f Hf) as (g & _ & M). destruct (im_good g f M) as [Gf _]. exists (lm f). split; [apply (good_lead nv lt p MO (P1 p Hp)); exact Gf|]. rewrite (good_lc nv lt MO f Gf). reflexivity.
  - intros i j f1 f2 l m H1 H2 NE HL Lm NZ Dv. destruct (NT i f1 H1) as (g & Hg & Mg). destruct (NT j f2 H2) as (h & Hh & Mh). destruct (im_good g f1 Mg) as [G1 E1].
    assert (l = lead g) by (rewrite <- E1; apply (lead_unique nv lt p MO (cf f1)); [exact HL|apply (good_lead nv lt p MO (P1 p Hp)); exact G1]). subst l.
    destruct Mh as (_ & _ & E). assert (Nh : cf h m <> 0).
    { intros Z0. apply NZ. specialize (E m Lm). rewrite Z0 in E. apply (eqp_unit_cancel p (lcoef h)); [exact Pp| |exact E]. intros K. apply (LC h); [apply nth_error_In with (1 := Hh)|]. unfold eqp in K. rewrite Z.sub_0_r in K. exact K. }
    apply cf_nz in Nh as (t & Ht & <-). apply (R i j g h t Hg Hh NE Ht Dv).
Qed.
Lemma mod_sorted : ForallOrdPairs (fun f g => lt (lead f) (lead g)) G -> ForallOrdPairs (fun f g => lt (F4Model.lmono f) (F4Model.lmono g)) Gp.
Proof.
  intros SO. clear HG LC. revert SO. induction IM as [|x y l l' H F IH]; intros SO; [constructor|]. inversion SO as [|? ? A B]; subst. constructor; [|apply IH; assumption]. rewrite Forall_forall in *.
  intros f Hf. assert (Q : exists g, In g l /\ monic_image nv lt p g f). { clear -F Hf. induction F as [|a b l l' H F IH]; [destruct Hf|]. destruct Hf as [<-|Hf]; [exists a; split; [left; reflexivity|exact H]|]. destruct (IH Hf) as (g & Hg & M). exists g. split; [right; exact Hg|exact M]. }
  destruct Q as (g & Hg & M). destruct M as (_ & (r & ->) & _). destruct H as (_ & (r' & ->) & _). cbn. apply A. exact Hg.
Qed.
End Mod.

(** * Conversely: the criterion of Buchberger over the rationals *)
Lemma unmod f m p : is_lead nv lt 0 f m -> ~ (p | f m) -> is_lead nv lt p f m.
Proof. intros (L & _ & H) Nd. split; [exact L|]. split; [intros K; apply Nd; unfold eqp in K; rewrite Z.sub_0_r in K; exact K|]. intros m' Lm' Hm'. specialize (H m' Lm' Hm'). apply eqp_zero in H. rewrite H. reflexivity. Qed.
Lemma q_buchberger (G : list poly) : Forall (zsorted nv lt) G -> (forall g h, In g G -> In h G -> zpair G g h) -> qgroebner nv lt G.
Proof.
  intros HG HP f m (d & Nd & Hf) HL.
  destruct (common (fun p g => ~ (p | lcoef g)) G) as (N1 & Z1 & K1); [intros g Hg; exists (lcoef g); rewrite Forall_forall in HG; destruct (z_len g (HG g Hg)) as (_ & Q & _); split; auto|].
  destruct (common (fun p gh => exists d, ~ (p | d) /\ lspan nv 0 (zbelow G (mlcm (lead (fst gh)) (lead (snd gh)))) (fun m => d * zspol (mlcm (lead (fst gh)) (lead (snd gh))) (fst gh) (snd gh) m)) (list_prod G G)) as (N2 & Z2 & K2).
  { intros [g h] H. apply in_prod_iff in H as [Hg Hh]. destruct (HP g h Hg Hh) as (e & Ne & He). exists e. split; [exact Ne|]. intros p _ D. exists e. split; [exact D|exact He]. }
  assert (NM : f m <> 0) by (destruct HL as (_ & Q & _); intros E; apply Q; apply eqp_zero; exact E).
  destruct (fresh_prime (N1 * (N2 * (d * f m)))) as (p & Pp & Dp); [repeat (intros E; apply Z.mul_eq_0 in E as [E|E]; [contradiction|revert E]); exact NM|].
  assert (D1 : ~ (p | N1)) by (intros K; apply Dp; apply Z.divide_mul_l; exact K). assert (D2 : ~ (p | N2)) by (intros K; apply Dp; apply Z.divide_mul_r; apply Z.divide_mul_l; exact K).
  assert (D3 : ~ (p | d)) by (intros K; apply Dp; do 2 apply Z.divide_mul_r; apply Z.divide_mul_l; exact K). assert (D4 : ~ (p | f m)) by (intros K; apply Dp; do 3 apply Z.divide_mul_r; exact K).
  assert (LC : forall g, In g G -> ~ (p | lcoef g)) by (intros g Hg; apply (K1 p Pp D1 g Hg)).
  destruct (monic_images_ex p G Pp HG LC) as (Gp & IM).
  assert (GB : groebner nv lt p (pfs Gp)). { apply (mod_groebner p Pp G Gp HG IM LC). intros g h Hg Hh. apply (K2 p Pp D2 (g, h)). apply in_prod; assumption. }
  assert (If : ideal nv p (pfs Gp) f) by (apply (lspan_unit nv p _ d f Pp D3); apply (gens_mod p G Gp IM); exact Hf).
  destruct (GB f m If (unmod f m p HL D4)) as (x & l & (f' & Hf' & ->) & HL' & Dv). destruct (im_bwd p G Gp IM f' Hf') as (g & Hg & M). exists g. split; [exact Hg|]. destruct (im_good p g f' M) as [G1 E1]. assert (Hp : 1 < p) by (destruct Pp; assumption).
  rewrite <- E1. replace (lm f') with l; [exact Dv|]. apply (lead_unique nv lt p MO (cf f')); [exact HL'|apply (good_lead nv lt p MO (P1 p Hp)); exact G1].
Qed.
End Q.
