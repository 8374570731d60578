(** C71: the bases modulo primes are the images of the reduced Groebner basis over the rationals, for all but finitely many primes. *)
From Coq Require Import ZArith NArith Arith List Bool Lia Sorted Znumtheory.
From Verif Require Import GliftSpec GliftModel GliftProofs GliftRun GliftProps.
From Verif Require Import LinSpec MonoSpec MonoModel MonoSpecProofs MonoCmpProofs GbSpec GbProofs GbIdeal LaModel LaProps F4Model F4Rows RoundProofs F4Props TraceModel TraceProps ElimProps QgbSpec QgbProofs QgbExist.
Import ListNotations.
Open Scope Z_scope.
Notation poly := (list (Z * mono)) (only parsing).

Lemma f2_length {A B} (R : A -> B -> Prop) l l' : Forall2 R l l' -> length l = length l'.
Proof. induction 1; cbn; congruence. Qed.

(** The good primes, in terms of the input F and the basis G over the rationals. *)
Definition lucky (nv : nat) (lt : mono -> mono -> Prop) (F G : list poly) (p : Z) : Prop :=
  (forall f, In f F -> ~ (p | lcoef f)) /\ forall Fp, Forall2 (QgbSpec.image nv lt p) F Fp -> exists Gp, Forall2 (monic_image nv lt p) G Gp /\
    same_ideal nv p (pfs Fp) (pfs Gp) /\ groebner nv lt p (pfs Gp) /\ reduced_basis nv lt p Gp /\ ForallOrdPairs (fun f g => lt (lmono f) (lmono g)) Gp.

Lemma finite_bad nv lt F G : mono_order nv lt -> Forall (zsorted nv lt) F -> qbasis nv lt F G -> exists N, N <> 0 /\ forall p, prime p -> ~ (p | N) -> lucky nv lt F G p.
Proof.
  intros MO HF (HG & SI & GB & RB & SO).
  destruct (common (fun p g => ~ (p | lcoef g)) (F ++ G)) as (N1 & Z1 & K1).
  { intros g Hg. exists (lcoef g). assert (Zg : zsorted nv lt g) by (rewrite Forall_forall in HF, HG; apply in_app_iff in Hg as [Hg|Hg]; auto). destruct (z_len nv lt g Zg) as (_ & Q & _). split; auto. }
  destruct (common (fun p gh => exists d, ~ (p | d) /\ lspan nv 0 (zbelow nv lt G (mlcm (lead (fst gh)) (lead (snd gh)))) (fun m => d * zspol (mlcm (lead (fst gh)) (lead (snd gh))) (fst gh) (snd gh) m)) (list_prod G G)) as (N2 & Z2 & K2).
  { intros [g h] H. apply in_prod_iff in H as [Hg Hh]. destruct (q_pair nv lt MO G g h HG GB Hg Hh) as (e & Ne & He). exists e. split; [exact Ne|]. intros p _ D. exists e. split; [exact D|exact He]. }
  assert (GEN : forall (H : list poly) f, In f H -> qideal nv (pfs H) (cf f)).
  { intros H f Hf. exists 1. split; [lia|]. unfold ideal. eapply lspan_ext; [apply (ideal_gen nv 0 (pfs H) (cf f)); exists f; split; [exact Hf|reflexivity]|]. intros m _. ring. }
  destruct (common (fun p f => exists d, ~ (p | d) /\ ideal nv 0 (pfs G) (fun m => d * cf f m)) F) as (N3 & Z3 & K3).
  { intros f Hf. destruct (proj1 (SI (cf f)) (GEN F f Hf)) as (d & Nd & Hd). exists d. split; [exact Nd|]. intros p _ D. exists d. split; assumption. }
  destruct (common (fun p g => exists d, ~ (p | d) /\ ideal nv 0 (pfs F) (fun m => d * cf g m)) G) as (N4 & Z4 & K4).
  { intros g Hg. destruct (proj2 (SI (cf g)) (GEN G g Hg)) as (d & Nd & Hd). exists d. split; [exact Nd|]. intros p _ D. exists d. split; assumption. }
  exists (N1 * (N2 * (N3 * N4))). split; [repeat (intros E; apply Z.mul_eq_0 in E as [E|E]; [contradiction|revert E]); exact Z4|]. intros p Pp Dp.
  assert (D1 : ~ (p | N1)) by (intros K; apply Dp; apply Z.divide_mul_l; exact K). assert (D2 : ~ (p | N2)) by (intros K; apply Dp; apply Z.divide_mul_r; apply Z.divide_mul_l; exact K).
  assert (D3 : ~ (p | N3)) by (intros K; apply Dp; do 2 apply Z.divide_mul_r; apply Z.divide_mul_l; exact K). assert (D4 : ~ (p | N4)) by (intros K; apply Dp; do 3 apply Z.divide_mul_r; exact K).
  split; [intros f Hf; apply (K1 p Pp D1); apply in_app_iff; left; exact Hf|]. intros Fp IF.
  assert (LC : forall g, In g G -> ~ (p | lcoef g)) by (intros g Hg; apply (K1 p Pp D1 g); apply in_app_iff; right; exact Hg).
  destruct (monic_images_ex nv lt p G Pp HG LC) as (Gp & IM). exists Gp. split; [exact IM|].
  split; [apply (mod_ideal nv lt p Pp G Gp IM LC F Fp IF); [apply (K3 p Pp D3)|apply (K4 p Pp D4)]|].
  split; [apply (mod_groebner nv lt MO p Pp G Gp HG IM LC); intros g h Hg Hh; apply (K2 p Pp D2 (g, h)); apply in_prod; assumption|].
  split; [apply (mod_reduced nv lt MO p Pp G Gp IM LC); exact RB|apply (mod_sorted nv lt p G Gp IM); exact SO].
Qed.

Lemma image_lead nv lt p f f' : mono_order nv lt -> 1 < p -> zsorted nv lt f -> ~ (p | lcoef f) -> QgbSpec.image nv lt p f f' -> lmono f' = lead f.
Proof.
  intros MO Hp Zf D (SP & E). assert (HL : is_lead nv lt p (cf f) (lead f)) by (apply (unmod nv lt (cf f) (lead f) p); [apply (z_is_lead nv lt MO); exact Zf|rewrite (proj1 (z_lead nv lt MO f Zf)); exact D]).
  assert (HL2 : is_lead nv lt p (cf f') (lmono f')).
  { destruct f' as [|t f']; [destruct SP; congruence|]. cbn [lmono]. pose proof SP as (_ & Q & _). destruct (Q t (or_introl eq_refl)) as [Q1 Q2]. split; [exact Q2|]. rewrite (sp_cf nv lt p MO (t :: f') t SP (or_introl eq_refl)). split; [intros [z K]; assert (fst t = z * p) by lia; assert (z <= 0 \/ 1 <= z) as [?|?] by lia; nia|].
    intros m Lm Hm. rewrite (sp_above nv lt p MO t f' m SP Hm Lm). reflexivity. }
  apply (lead_unique nv lt p MO (cf f)); [|exact HL]. destruct HL2 as (A & B & C). split; [exact A|]. split; [rewrite (E _ A); exact B|]. intros m Lm Hm. rewrite (E m Lm). apply C; assumption.
Qed.
Lemma images_ex nv lt p F : mono_order nv lt -> prime p -> Forall (zsorted nv lt) F -> (forall f, In f F -> ~ (p | lcoef f)) -> exists Fp, Forall2 (QgbSpec.image nv lt p) F Fp.
Proof.
  intros MO Pp H D. assert (Hp : 1 < p) by (destruct Pp; assumption). induction H as [|f F Hf H IH]; [exists []; constructor|]. destruct IH as [Fp IF]; [intros x Hx; apply D; right; exact Hx|]. exists (imgl p 1 f :: Fp). constructor; [|exact IF].
  assert (E : peq nv p (cf f) (cf (imgl p 1 f))) by (intros m _; rewrite (imgl_cf p 1 f m Hp), Z.mul_1_l; reflexivity). split; [|exact E].
  destruct (imgl_sorted nv lt p 1 f Hp (or_intror Hf)) as [K|K]; [|exact K]. exfalso. destruct (z_len nv lt f Hf) as (Lf & _). specialize (E (lead f) Lf). rewrite K, (proj1 (z_lead nv lt MO f Hf)) in E. apply (D f (or_introl eq_refl)). unfold eqp in E. cbn [cf] in E. rewrite Z.sub_0_r in E. exact E.
Qed.

(** * C71 *)
(** Every system has a reduced Groebner basis over the rationals, unique up to a factor for each element. *)
Theorem C71_basis nv lt F : mono_order nv lt -> Forall (zsorted nv lt) F -> (exists G, qbasis nv lt F G) /\
  forall G G', qbasis nv lt F G -> qbasis nv lt F G' -> length G = length G' /\ forall k g g', nth_error G k = Some g -> nth_error G' k = Some g' -> lead g = lead g' /\ forall m, length m = nv -> lcoef g' * cf g m = lcoef g * cf g' m.
Proof.
  intros MO HF. split; [apply qbasis_exists; assumption|]. intros G G' QG QG'.
  destruct (finite_bad nv lt F G MO HF QG) as (N & NZ & K). destruct (finite_bad nv lt F G' MO HF QG') as (N' & NZ' & K').
  assert (X : forall x, x <> 0 -> exists p Gp, prime p /\ ~ (p | x) /\ Forall2 (monic_image nv lt p) G Gp /\ Forall2 (monic_image nv lt p) G' Gp).
  { intros x Hx. destruct (fresh_prime (N * (N' * x))) as (p & Pp & Dp); [repeat (intros E; apply Z.mul_eq_0 in E as [E|E]; [contradiction|revert E]); exact Hx|].
    assert (D1 : ~ (p | N)) by (intros Q; apply Dp; apply Z.divide_mul_l; exact Q). assert (D2 : ~ (p | N')) by (intros Q; apply Dp; apply Z.divide_mul_r; apply Z.divide_mul_l; exact Q). assert (D3 : ~ (p | x)) by (intros Q; apply Dp; do 2 apply Z.divide_mul_r; exact Q).
    destruct (K p Pp D1) as [L1 L2]. destruct (K' p Pp D2) as [_ L2']. destruct (images_ex nv lt p F MO Pp HF L1) as (Fp & IF). destruct (L2 Fp IF) as (Gp & IM & A1 & A2 & A3 & A4). destruct (L2' Fp IF) as (Gp' & IM' & B1 & B2 & B3 & B4).
    assert (M1 : forall f, In f Gp -> sorted_poly nv lt p f /\ exists m f', f = (1, m) :: f') by (intros f Hf; destruct (im_bwd _ _ _ G Gp IM f Hf) as (g & _ & (Q1 & (r & Er) & _)); eauto).
    assert (M2 : forall f, In f Gp' -> sorted_poly nv lt p f /\ exists m f', f = (1, m) :: f') by (intros f Hf; destruct (im_bwd _ _ _ G' Gp' IM' f Hf) as (g & _ & (Q1 & (r & Er) & _)); eauto).
    exists p, Gp. split; [exact Pp|]. split; [exact D3|]. split; [exact IM|]. replace Gp with Gp'; [exact IM'|]. apply (reduced_list_unique nv lt p); auto; [destruct Pp; assumption|]. intros f. rewrite <- (B1 f). apply A1. }
  assert (ONE : (1 : Z) <> 0) by discriminate. destruct (X 1 ONE) as (p & Gp & _ & _ & I1 & I2). split; [rewrite (f2_length _ _ _ I1), (f2_length _ _ _ I2); reflexivity|].
  assert (AT : forall q l l' k g, Forall2 (monic_image nv lt q) l l' -> nth_error l k = Some g -> exists f, nth_error l' k = Some f /\ monic_image nv lt q g f).
  { clear. intros q l l' k g H. revert k. induction H as [|x y l l' H F IH]; intros [|k] E; cbn in E; try discriminate; [injection E as <-; exists y; split; [reflexivity|exact H]|]. apply IH. exact E. }
  intros k g g' Hg Hg'. split.
  - destruct (AT _ _ _ _ _ I1 Hg) as (f & Hf & (_ & (r & Er) & _)). destruct (AT _ _ _ _ _ I2 Hg') as (f' & Hf' & (_ & (r' & Er') & _)). rewrite Hf in Hf'. injection Hf' as <-. rewrite Er in Er'. injection Er' as E _. exact E.
  - intros m Lm. destruct (Z.eq_dec (lcoef g' * cf g m - lcoef g * cf g' m) 0) as [E|E]; [lia|]. exfalso. destruct (X _ E) as (q & Gq & _ & D & J1 & J2). apply D.
    destruct (AT _ _ _ _ _ J1 Hg) as (f & Hf & (_ & _ & Ef)). destruct (AT _ _ _ _ _ J2 Hg') as (f' & Hf' & (_ & _ & Ef')). rewrite Hf in Hf'. injection Hf' as <-. specialize (Ef m Lm). specialize (Ef' m Lm). destruct Ef as [a A], Ef' as [b B]. exists (lcoef g * b - lcoef g' * a).
    replace (cf g m) with (lcoef g * cf f m - a * q) by lia. replace (cf g' m) with (lcoef g' * cf f m - b * q) by lia. ring.
Qed.
Print Assumptions C71_basis.

(** All but finitely many primes are good. *)
Theorem C71_finite nv lt F G : mono_order nv lt -> Forall (zsorted nv lt) F -> qbasis nv lt F G -> exists N, N <> 0 /\ forall p, prime p -> ~ (p | N) -> lucky nv lt F G p.
Proof. apply finite_bad. Qed.
Print Assumptions C71_finite.

(** For a good prime p the input has an image modulo p, and F4 modulo p, whenever it ends with a result, returns the image of the reduced Groebner basis
    over the rationals (each element divided by its leading coefficient). *)
Theorem C71_lucky o F G p : Forall (zsorted (o_nv o) (o_lt o)) F -> prime p -> lucky (o_nv o) (o_lt o) F G p ->
  (exists Fp, Forall2 (QgbSpec.image (o_nv o) (o_lt o) p) F Fp) /\
  forall c fuel Fp out, cfg_ok c -> c_o c = o -> c_p c = p -> Forall2 (QgbSpec.image (o_nv o) (o_lt o) p) F Fp -> core_f4 c true fuel Fp = Ok out -> Forall2 (monic_image (o_nv o) (o_lt o) p) G out.
Proof.
  intros HF Pp [L1 L2]. pose proof (o_lt_order o) as MO. split; [apply images_ex; assumption|].
  intros c fuel Fp out CK <- <- IF E. destruct (L2 Fp IF) as (Gp & IM & A1 & A2 & A3 & A4).
  assert (SF : Forall (sorted_poly (o_nv (c_o c)) (o_lt (c_o c)) (c_p c)) Fp). { clear -IF. induction IF as [|x y l l' H F IH]; constructor; [apply H|assumption]. }
  destruct (C23_sound c true fuel Fp out CK SF E) as (B1 & B2 & _ & B4 & B5). destruct (B5 eq_refl) as [B6 B7].
  replace out with Gp; [exact IM|]. apply (reduced_list_unique (o_nv (c_o c)) (o_lt (c_o c)) (c_p c)); auto; [apply (cfg_p c CK)|intros f; rewrite <- (A1 f); apply B1|].
  intros f Hf. destruct (im_bwd (o_nv (c_o c)) (o_lt (c_o c)) (c_p c) G Gp IM f Hf) as (g & _ & M). destruct M as (S1 & (r & Er) & _). split; [exact S1|eauto].
Qed.
Print Assumptions C71_lucky.

(** The same for the application of a trace: when the prime of the learning run and the other prime are not among the finitely many exceptions, an accepted
    application returns the image of the basis over the rationals. *)
Theorem C71_trace o F G c1 c2 fuel1 fuel F1 F2 out1 T out2 : Forall (zsorted (o_nv o) (o_lt o)) F ->
  cfg_ok c1 -> cfg_ok c2 -> c_o c1 = o -> c_o c2 = o -> lucky (o_nv o) (o_lt o) F G (c_p c1) -> lucky (o_nv o) (o_lt o) F G (c_p c2) ->
  Forall2 (QgbSpec.image (o_nv o) (o_lt o) (c_p c1)) F F1 -> Forall2 (QgbSpec.image (o_nv o) (o_lt o) (c_p c2)) F F2 ->
  learn_f4 c1 fuel1 F1 = Ok (out1, T) -> apply_f4 c2 fuel T F2 = Ok (Some out2) ->
  Forall2 (monic_image (o_nv o) (o_lt o) (c_p c1)) G out1 /\ Forall2 (monic_image (o_nv o) (o_lt o) (c_p c2)) G out2.
Proof.
  intros HF C1 C2 E1 E2 D1 D2 I1 I2 HL HA. pose proof (o_lt_order o) as MO.
  assert (SRT : forall p Fp, Forall2 (QgbSpec.image (o_nv o) (o_lt o) p) F Fp -> Forall (sorted_poly (o_nv o) (o_lt o) p) Fp). { clear. intros p Fp IF. induction IF as [|x y l l' H F IH]; constructor; [apply H|assumption]. }
  assert (LEADS : forall p Fp, 1 < p -> (forall f, In f F -> ~ (p | lcoef f)) -> Forall2 (QgbSpec.image (o_nv o) (o_lt o) p) F Fp -> map lmono Fp = map lead F).
  { clear -MO HF. intros p Fp Hp D IF. induction IF as [|x y l l' H F IH]; [reflexivity|]. inversion HF as [|? ? Hx Hl]; subst. cbn [map]. f_equal; [apply (image_lead (o_nv o) (o_lt o) p); auto; apply D; left; reflexivity|apply IH; auto; intros f Hf; apply D; right; exact Hf]. }
  assert (P1' := cfg_p c1 C1). assert (P2' := cfg_p c2 C2). destruct D1 as [LA1 L1]. destruct D2 as [LA2 L2].
  destruct (L1 F1 I1) as (G1 & IM1 & A1 & A2 & A3 & A4). destruct (L2 F2 I2) as (G2 & IM2 & B1 & B2 & B3 & B4).
  assert (S1 := SRT _ _ I1). assert (S2 := SRT _ _ I2). assert (EL : map lmono F1 = map lmono F2) by (rewrite (LEADS _ _ P1' LA1 I1), (LEADS _ _ P2' LA2 I2); reflexivity).
  assert (M1 : forall f, In f G1 -> sorted_poly (o_nv o) (o_lt o) (c_p c1) f /\ exists m f', f = (1, m) :: f') by (intros f Hf; destruct (im_bwd _ _ _ G G1 IM1 f Hf) as (g & _ & (Q1 & (r & Er) & _)); eauto).
  assert (M2 : forall f, In f G2 -> sorted_poly (o_nv o) (o_lt o) (c_p c2) f /\ exists m f', f = (1, m) :: f') by (intros f Hf; destruct (im_bwd _ _ _ G G2 IM2 f Hf) as (g & _ & (Q1 & (r & Er) & _)); eauto).
  subst o. rewrite <- E2 in S2. pose proof (C43_learn_same c1 fuel1 F1 C1 S1) as LS. rewrite HL in LS. destruct (C23_sound c1 true fuel1 F1 out1 C1 S1 LS) as (X1 & X2 & _ & X4 & X5). destruct (X5 eq_refl) as [X6 X7].
  assert (EO1 : G1 = out1) by (apply (reduced_list_unique (o_nv (c_o c1)) (o_lt (c_o c1)) (c_p c1)); auto; intros f; rewrite <- (A1 f); apply X1). subst out1.
  split; [exact IM1|]. destruct (C50_correct c1 c2 fuel1 fuel F1 F2 G1 T out2 C1 C2 (eq_sym E2) S1 S2 EL HL HA) as [CC _]. destruct (C50_sound c1 c2 fuel1 fuel F1 F2 G1 T out2 C1 C2 (eq_sym E2) S1 S2 EL HL HA) as (_ & Y1 & Y2 & Y3).
  rewrite E2 in *. destruct (proj2 CC) as [Z1 Z2].
  { intros f m If HLf. apply B1 in If. destruct (B2 f m If HLf) as (x & l & (f2 & Hf2 & ->) & Hl & Dv). destruct (im_bwd _ _ _ G G2 IM2 f2 Hf2) as (g & Hg & M). destruct (im_good _ _ _ g f2 M) as [Gd Elm].
    destruct (im_fwd _ _ _ G G1 IM1 g Hg) as (f1 & Hf1 & Mf1). exists f1. split; [exact Hf1|]. destruct (im_good _ _ _ g f1 Mf1) as [Gd1 Elm1]. change (lmono f1) with (lm f1). rewrite Elm1, <- Elm. replace (lm f2) with l; [exact Dv|].
    apply (lead_unique _ _ (c_p c2) MO (cf f2)); [exact Hl|apply (good_lead _ _ (c_p c2) MO (P1 _ P2')); exact Gd]. }
  replace out2 with G2; [exact IM2|]. apply (reduced_list_unique (o_nv (c_o c1)) (o_lt (c_o c1)) (c_p c2)); auto.
  - intros f. rewrite <- (B1 f). apply Z1.
  - intros f Hf. destruct (Y1 f Hf) as (Q1 & Q2 & _). split; assumption.
Qed.
Print Assumptions C71_trace.

(** The lifting: coefficients c < lens k of polynomial k, at the monomials mb. When the images are those of results of F4 modulo primes that are no
    exceptions, a success gives the basis over the rationals, as soon as the product of the primes used exceeds a bound in the sizes of the coefficients. *)
Definition dense (mb : list mono) (lens : list nat) (out : list poly) (cs : list (list Z)) : Prop :=
  length cs = length out /\ forall k f, nth_error out k = Some f -> nth k cs [] = map (cf f) (firstn (nth k lens O) mb).
Theorem C71_lift o F G p0 cs0 ins s mb lens : Forall (zsorted (o_nv o) (o_lt o)) F -> images_ok p0 cs0 ins -> lift_all ins (init_lift p0 cs0) = Some (s, true) -> Forall (fun m => length m = o_nv o) mb ->
  (forall im, In im (goods ins) -> lucky (o_nv o) (o_lt o) F G (fst im) /\ exists c fuel Fp out, cfg_ok c /\ c_o c = o /\ c_p c = fst im /\ Forall2 (QgbSpec.image (o_nv o) (o_lt o) (fst im)) F Fp /\
     core_f4 c true fuel Fp = Ok out /\ dense mb lens out (snd im)) ->
  forall k r g, nth_error (l_pols s) k = Some r -> nth_error G k = Some g -> exists U rest, goods ins = U ++ rest /\ U <> [] /\ 0 < g_lm r /\
    forall c n d m, nth_error (g_qq r) c = Some (n, d) -> nth_error (firstn (nth k lens O) mb) c = Some m ->
      Z.abs (g_lm r * cf g m - n * lcoef g) < product U -> d = 1 /\ g_lm r * cf g m = n * lcoef g.
Proof.
  intros HF OK HE HM HI.
  set (a := fun k c => match nth_error G k, nth_error (firstn (nth k lens O) mb) c with Some g, Some m => cf g m | _, _ => 0 end).
  set (b := fun k (c : nat) => match nth_error G k with Some g => lcoef g | None => 1 end).
  assert (A : forall k c im, In im (goods ins) -> (fst im | b k c * GliftSpec.cf k c im - a k c)).
  { intros k c im Him. destruct (HI im Him) as (Dp & cc & fuel & Fp & out & CK & Eo & Ep & IF & E & Ld & De). assert (Pp : prime (fst im)) by (rewrite <- Ep; apply (ck_p cc CK)). destruct (C71_lucky o F G (fst im) HF Pp Dp) as [_ L2]. specialize (L2 cc fuel Fp out CK Eo Ep IF E).
    unfold GliftSpec.cf, a, b. destruct (nth_error G k) as [g|] eqn:EG.
    - assert (Q : exists f, nth_error out k = Some f /\ monic_image (o_nv o) (o_lt o) (fst im) g f). { clear -L2 EG. revert k EG. induction L2 as [|x y l l' H F IH]; intros [|k] EG; cbn in EG; try discriminate; [injection EG as <-; exists y; split; [reflexivity|exact H]|]. apply IH. exact EG. }
      destruct Q as (f & Hf & (_ & _ & Em)). rewrite (De k f Hf). destruct (nth_error (firstn (nth k lens O) mb) c) as [m|] eqn:EM.
      + rewrite (nth_indep _ 0 (cf f m)) by (rewrite map_length; apply (proj1 (nth_error_Some _ _)); intros Q; pose proof (eq_trans (eq_sym EM) Q) as X; discriminate X). rewrite map_nth. pose proof (nth_error_nth _ c m EM) as EN. match goal with |- (_ | _ * cf f ?x - _) => replace x with m by (symmetry; exact EN) end. apply Em. rewrite Forall_forall in HM. apply HM. apply nth_error_In in EM. rewrite <- (firstn_skipn (nth k lens O) mb). apply in_app_iff. left. exact EM.
      + rewrite nth_overflow by (rewrite map_length; apply nth_error_None; exact EM). rewrite Z.mul_0_r. apply Z.divide_0_r.
    - assert (LG : (length (snd im) <= k)%nat) by (rewrite Ld, <- (f2_length _ _ _ L2); apply nth_error_None; exact EG). rewrite (nth_overflow (snd im)) by exact LG. destruct c; cbn [nth]; rewrite Z.mul_0_r; apply Z.divide_0_r. }
  intros k r g Hk Hg. destruct (C62_sound p0 cs0 ins s OK HE) as [_ SD]. destruct (SD k r Hk) as (_ & _ & _ & _ & _ & _ & _ & PL & _).
  destruct (C62_exact p0 cs0 ins s a b OK HE A k r Hk) as (U & rest & HU & NU & HX). exists U, rest. split; [exact HU|]. split; [exact NU|]. split; [exact PL|].
  intros c n d m Hc Hm HB. specialize (HX c n d Hc). unfold a, b in HX. rewrite Hg, Hm in HX. apply HX. exact HB.
Qed.
Print Assumptions C71_lift.
