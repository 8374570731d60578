(** C63: the lifting of the parametrisation over Q (src/msolve/msolve.c). *)
From Coq Require Import ZArith Znumtheory Arith List Bool Lia Setoid Morphisms.
From Verif Require Import LinSpec FpSpec NmodModel FpProofs ModInvModel CrtModel LiftModel GliftProofs QparSpec QparModel QparProofs QparRun.
Import ListNotations.
Open Scope Z_scope.

(** Images of one parametrisation: same degree, same number of coordinates, different word-size primes *)
Definition images_ok (d nc : nat) (L : list image) : Prop := (0 < d)%nat /\ (forall im, In im L -> image_ok d nc im) /\ NoDup (map im_p L).

(** What the end of the loop says. The eliminating polynomial agrees with all the images of a set U0 of primes that contains the first one, and
    with the image of a later prime q that was not used to compute it. Each coordinate A, with its positive denominator f, agrees with the images
    of such a set up to the lengths of the images; at q it agrees too, unless q divides f. Above the lengths of all the images it is zero. *)
Theorem C63_sound d nc im0 bs s : images_ok d nc (im0 :: goods bs) -> run bs (init im0) = Some (Finished s) ->
  length (s_elim s) = S d /\ length (s_coords s) = nc /\ length (s_cfs s) = nc /\
  exists q, In q (goods bs) /\ ~ (im_p q | co (s_elim s) d) /\ elim_agrees d (s_elim s) q /\
    (exists U0, incl (im0 :: U0) (im0 :: goods bs) /\ NoDup (map im_p (im0 :: U0 ++ [q])) /\ forall im, In im (im0 :: U0) -> elim_agrees d (s_elim s) im) /\
    forall k A f, nth_error (s_coords s) k = Some A -> nth_error (s_cfs s) k = Some f -> 0 < f /\ length A = d /\
      (forall j, (forall im, In im (im0 :: goods bs) -> (im_len k im <= j)%nat) -> co A j = 0) /\
      ((im_p q | f) \/ coord_agrees d (s_elim s) f A k (im_len k q) q) /\
      exists U1 im1, incl (im0 :: U1) (im0 :: goods bs) /\ NoDup (map im_p (im0 :: U1 ++ [q])) /\ In im1 (im0 :: U1) /\
        forall im, In im (im0 :: U1) -> coord_agrees d (s_elim s) f A k (Nat.min (im_len k im1) (im_len k im)) im.
Proof.
  intros (Hd & HO & ND) HE. set (All := im0 :: goods bs) in *.
  assert (PG : primes_good d nc All ((im0 :: []) ++ goods bs)) by (intros im Him; split; [apply HO; exact Him|exact Him]).
  destruct (run_ok d nc All Hd im0 bs [] (init im0) s (init_ok d nc All Hd im0 (HO im0 (or_introl eq_refl)) (or_introl eq_refl)) PG ND HE) as (P' & l' & A1 & [(U & HI & HU & HN & HQ) HD] & R1 & R2 & <-).
  destruct (HD R1) as (LE & LC). destruct (HQ R1 R2) as (q & Q1 & Q2 & (Q3 & Q4 & Q5)). destruct HI as [Ine Iok Im Ice Icc Ilen Ics Inle Ile Itr Idt]. destruct Ilen as (L1 & L2). destruct Ics as (S1 & S2 & S3).
  assert (QG : In q (goods bs)) by (apply A1; exact Q1).
  assert (PRE : forall V R, im0 :: U = V ++ R -> V <> [] -> exists V', V = im0 :: V' /\ incl (im0 :: V') All /\ NoDup (map im_p (im0 :: V' ++ [q]))).
  { intros [|v V] R E NE; [contradiction|]. injection E as <- EU. exists V. split; [reflexivity|]. split.
    - intros x Hx. assert (X : In x (im0 :: U)) by (rewrite EU; destruct Hx as [<-|Hx]; [left; reflexivity|right; apply in_or_app; left; exact Hx]). apply HU in X. destruct X as [<-|X]; [left; reflexivity|right; apply A1; exact X].
    - subst U. assert (N1 : NoDup (map im_p (im0 :: V))). { unfold ims_p in HN. change (im0 :: V ++ R) with ((im0 :: V) ++ R) in HN. rewrite map_app in HN. apply (NoDup_app1 _ _ HN). }
      change (im0 :: V ++ [q]) with ((im0 :: V) ++ [q]). rewrite map_app. apply NoDup_snoc; [|exact N1]. intros X. apply Q2. unfold ims_p. change (im0 :: V ++ R) with ((im0 :: V) ++ R). rewrite map_app. apply in_or_app. left. exact X. }
  split; [exact L1|]. split; [exact L2|]. split; [congruence|]. exists q. split; [exact QG|]. split; [exact Q3|]. split; [exact Q4|]. split.
  - destruct (Ile LE) as (U0 & R & E & NE & G). destruct (PRE U0 R E NE) as (V' & -> & I1 & I2). exists V'. split; [exact I1|]. split; [exact I2|exact G].
  - intros k A f HA HF. assert (HL : exists l, nth_error (s_lc (l_s l')) k = Some l) by (destruct (nth_error (s_lc (l_s l')) k) eqn:X; [eexists; reflexivity|]; apply nth_error_None in X; assert (Y : (k < length (s_coords (l_s l')))%nat) by (apply nth_error_Some; congruence); lia). destruct HL as (l & HL). pose proof (LC l (nth_error_In _ _ HL)). subst l.
    destruct (S3 k A f true HA HF HL) as (C1 & C2 & C3). cbn [Nat.add] in C2, C3. assert (HG : co (s_elim (l_s l')) d * Z.of_nat d <> 0) by (intros X; apply Z.mul_eq_0 in X as [X|X]; [apply Q3; rewrite X; apply Z.divide_0_r|lia]). destruct (C3 eq_refl HG) as (F & U1 & im1 & R & E & G). split; [exact F|]. split; [exact C1|]. split; [exact C2|]. split; [apply Q5; assumption|].
    destruct (PRE (U1 ++ [im1]) R) as (V' & EV & I1 & I2); [rewrite <- app_assoc; exact E|destruct U1; discriminate|]. exists V', im1. split; [exact I1|]. split; [exact I2|]. rewrite <- EV. split; [apply in_or_app; right; left; reflexivity|exact G].
Qed.
Print Assumptions C63_sound.

Lemma NoDup_primes d nc L L' : images_ok d nc L -> incl L' L -> NoDup (map im_p L') -> primes_ok (map im_p L').
Proof. intros (_ & HO & _) HI N. split; [|exact N]. intros p Hp. apply in_map_iff in Hp as (im & <- & Him). destruct (HO im (HI im Him)) as ((K1 & K2) & _). split; [exact K1|lia]. Qed.
Lemma divide_prod (L : list Z) x : primes_ok L -> (forall p, In p L -> (p | x)) -> (prod L | x).
Proof.
  induction L as [|p L IH]; intros OK HD; cbn [prod fold_right]; [apply Z.divide_1_l|]. destruct (HD p (or_introl eq_refl)) as [y Hy]. assert (OK' : primes_ok L) by (destruct OK as [A N]; apply NoDup_cons_iff in N as [_ N]; split; [intros q Hq; apply A; right; exact Hq|exact N]). pose proof (IH OK' (fun q Hq => HD q (or_intror Hq))) as D. fold (prod L).
  assert (D2 : (prod L | y)) by (apply (Z.gauss (prod L) p); [rewrite Z.mul_comm, <- Hy; exact D|apply prod_coprime; exact OK]). destruct D2 as [z Hz]. exists z. rewrite Hy, Hz. ring.
Qed.
(** When the images are those of a rational parametrisation, with coefficients a_i / b_i of the eliminating polynomial and u_kj / v_kj of the
    coordinates, the result is this parametrisation as soon as the heights are small against the product of the primes used *)
Theorem C63_exact d nc im0 bs s (a b : nat -> Z) (u v : nat -> nat -> Z) (n : nat -> nat) : images_ok d nc (im0 :: goods bs) -> run bs (init im0) = Some (Finished s) ->
  (forall im, In im (im0 :: goods bs) -> (forall i, (i <= d)%nat -> (im_p im | b i * co (im_elim im) i - a i)) /\ forall k, im_len k im = n k /\ forall j, (j < n k)%nat -> (im_p im | v k j * im_co k j im - u k j)) ->
  (exists U, incl (im0 :: U) (im0 :: goods bs) /\ NoDup (map im_p (im0 :: U)) /\ forall i, (i <= d)%nat -> Z.abs (co (s_elim s) d * a i - co (s_elim s) i * b i) < fold_right Z.mul 1 (map im_p (im0 :: U)) -> co (s_elim s) d * a i = co (s_elim s) i * b i) /\
  forall k A f, nth_error (s_coords s) k = Some A -> nth_error (s_cfs s) k = Some f -> (forall j, (n k <= j)%nat -> co A j = 0) /\
    exists U, incl (im0 :: U) (im0 :: goods bs) /\ NoDup (map im_p (im0 :: U)) /\ forall j, (j < n k)%nat ->
      Z.abs (f * (co (s_elim s) d * Z.of_nat d) * u k j - co A j * v k j) < fold_right Z.mul 1 (map im_p (im0 :: U)) -> f * (co (s_elim s) d * Z.of_nat d) * u k j = co A j * v k j.
Proof.
  intros OK HE HI. destruct (C63_sound d nc im0 bs s OK HE) as (_ & _ & _ & q & _ & _ & _ & (U0 & I0 & N0 & G0) & HC).
  assert (KEY : forall U x, incl (im0 :: U) (im0 :: goods bs) -> NoDup (map im_p (im0 :: U ++ [q])) -> (forall im, In im (im0 :: U) -> (im_p im | x)) -> Z.abs x < fold_right Z.mul 1 (map im_p (im0 :: U)) -> x = 0).
  { intros U x I N HD HB. assert (N1 : NoDup (map im_p (im0 :: U))) by (change (im0 :: U ++ [q]) with ((im0 :: U) ++ [q]) in N; rewrite map_app in N; apply (NoDup_app1 _ _ N)). pose proof (NoDup_primes d nc _ _ OK I N1) as PK. assert (D : (prod (map im_p (im0 :: U)) | x)) by (apply divide_prod; [exact PK|]; intros p Hp; apply in_map_iff in Hp as (im & <- & Him); apply HD; exact Him).
    change (fold_right Z.mul 1 (map im_p (im0 :: U))) with (prod (map im_p (im0 :: U))) in HB. destruct D as [z Hz]. assert (0 < prod (map im_p (im0 :: U))) by (apply prod_pos; apply PK). assert (z = 0) by nia. subst z. lia. }
  assert (ND : forall U, NoDup (map im_p (im0 :: U ++ [q])) -> NoDup (map im_p (im0 :: U))) by (intros U N; change (im0 :: U ++ [q]) with ((im0 :: U) ++ [q]) in N; rewrite map_app in N; apply (NoDup_app1 _ _ N)).
  split.
  - exists U0. split; [exact I0|]. split; [apply ND; exact N0|]. intros i Hi HB. enough (co (s_elim s) d * a i - co (s_elim s) i * b i = 0) by lia. apply (KEY U0); [exact I0|exact N0| |exact HB]. intros im Him. pose proof (G0 im Him i Hi) as X. destruct (HI im (I0 im Him)) as (Y & _). specialize (Y i Hi).
    replace (co (s_elim s) d * a i - co (s_elim s) i * b i) with (- (co (s_elim s) d) * (b i * co (im_elim im) i - a i) - b i * (co (s_elim s) i - co (s_elim s) d * co (im_elim im) i)) by ring. apply Z.divide_sub_r; apply Z.divide_mul_r; assumption.
  - intros k A f HA HF. destruct (HC k A f HA HF) as (_ & _ & C2 & _ & U1 & im1 & I1 & N1 & M1 & G1). split.
    + intros j Hj. apply C2. intros im Him. destruct (HI im Him) as (_ & Y). destruct (Y k) as (-> & _). exact Hj.
    + exists U1. split; [exact I1|]. split; [apply ND; exact N1|]. intros j Hj HB. enough (f * (co (s_elim s) d * Z.of_nat d) * u k j - co A j * v k j = 0) by lia. apply (KEY U1); [exact I1|exact N1| |exact HB]. intros im Him. destruct (HI im (I1 im Him)) as (_ & Y). destruct (Y k) as (Y1 & Y2). destruct (HI im1 (I1 im1 M1)) as (_ & Y0). destruct (Y0 k) as (Y3 & _). pose proof (G1 im Him j ltac:(lia)) as X. specialize (Y2 j Hj).
      set (g := f * (co (s_elim s) d * Z.of_nat d)) in *. replace (g * u k j - co A j * v k j) with (- g * (v k j * im_co k j im - u k j) - v k j * (co A j - g * im_co k j im)) by ring. apply Z.divide_sub_r; apply Z.divide_mul_r; assumption.
Qed.
Print Assumptions C63_exact.

(** The coordinate k of the image is what normalize_nmod_param makes of the polynomial X *)
Definition normalised (im : image) (k : nat) (X : list Z) : Prop := normalize_coord (im_p im) (im_elim im) X = Some (firstn (im_len k im) (snd (nth k (im_coords im) (0%nat, [])))).
Definition deriv (e : list Z) : list Z := map (fun i => Z.of_nat i * co e i) (seq 1 (length e - 1)).
Lemma pc_map_seq (F : nat -> Z) n i : pc (map F (seq 1 n)) i = if (i <? n)%nat then F (S i) else 0.
Proof.
  unfold pc. destruct (Nat.ltb_spec i n) as [H|H]; [|apply nth_overflow; rewrite map_length, seq_length; exact H]. rewrite (nth_indep _ 0 (F 0%nat)) by (rewrite map_length, seq_length; exact H). rewrite map_nth, seq_nth by exact H. reflexivity.
Qed.
Lemma meaning_at d nc im k X el f A : image_ok d nc im -> (0 < d)%nat -> (k < nc)%nat -> normalised im k X -> length el = S d -> elim_agrees d el im -> coord_agrees d el f A k (im_len k im) im -> (forall j, (im_len k im <= j)%nat -> co A j = 0) ->
  pdvd (im_p im) (im_elim im) (psub (pmul (pscal f (deriv el)) X) A).
Proof.
  intros ((K1 & K2) & K3 & K4 & K5 & K6 & K7) Hd Hk HN HL HE HC HZ. set (p := im_p im) in *. set (e := im_elim im) in *. pose proof (prime_ge_2 p K1) as P2. unfold normalised, normalize_coord in HN. fold p e in HN. rewrite K3 in HN. replace (S d - 1)%nat with d in HN by lia. set (inv := zinv p (Z.of_nat d)) in *.
  set (den := map _ (seq 1 d)) in HN. assert (NFE : norm p e = e).
  { unfold norm. rewrite map_mod_id by exact K5. destruct (rev e) as [|x re] eqn:ER; [apply (f_equal (@length Z)) in ER; rewrite rev_length, K3 in ER; discriminate|]. assert (EE : e = rev re ++ [x]) by (rewrite <- (rev_involutive e), ER; reflexivity). assert (X1 : x = 1) by (unfold co in K4; rewrite EE in K4; rewrite app_nth2 in K4 by (rewrite EE, app_length in K3; cbn in K3; lia); rewrite EE, app_length in K3; cbn in K3; replace (d - length (rev re))%nat with 0%nat in K4 by lia; exact K4).
    rewrite EE, X1. clear. induction (rev re) as [|y l IH]; [reflexivity|]. cbn [app strip]. rewrite IH. destruct l; reflexivity. }
  assert (HD : hdeg p e d). { split; [intros i Hi; rewrite pc_over by lia; reflexivity|]. change (pc e d) with (co e d). rewrite K4. apply (one_ne p K1). }
  assert (DI : eqp p (inv * Z.of_nat d) 1). { apply (zinv_ok p K1). intros X1. unfold eqp in X1. rewrite Z.sub_0_r in X1. apply Z.divide_pos_le in X1; lia. }
  destruct (ndivrem_ok p K1 (nmul p X den) e d (nf_norm p K1 _) NFE HD) as (q & r & ER & EQ & DR & _ & NR). rewrite ER in HN. cbn [obind snd] in HN. injection HN as HN.
  assert (DEN : peq p den (pscal inv (deriv e))).
  { intros i. unfold den, deriv. rewrite pc_pscal, !pc_map_seq. rewrite K3. replace (S d - 1)%nat with d by lia. destruct (i <? d)%nat; [|rewrite Z.mul_0_r; reflexivity]. unfold eqp. set (y := Z.of_nat (S i) * co e (S i)). pose proof (Z.div_mod y p ltac:(lia)) as M1. pose proof (Z.div_mod (inv * (y mod p)) p ltac:(lia)) as M2. exists (- ((inv * (y mod p)) / p) - inv * (y / p)). nia. }
  assert (DEL : peq p (deriv el) (pscal (co el d) (deriv e))).
  { intros i. unfold deriv. rewrite pc_pscal, !pc_map_seq. rewrite K3, HL. destruct (Nat.ltb_spec i (S d - 1)); [|rewrite Z.mul_0_r; reflexivity]. unfold eqp. replace (Z.of_nat (S i) * co el (S i) - co el d * (Z.of_nat (S i) * co e (S i))) with (Z.of_nat (S i) * (co el (S i) - co el d * co e (S i))) by ring. apply Z.divide_mul_r. apply HE. lia. }
  assert (NA : exists a, nth_error (im_coords im) k = Some a) by (destruct (nth_error (im_coords im) k) eqn:X1; [eexists; reflexivity|apply nth_error_None in X1; lia]). destruct NA as (a & NA). pose proof (nth_error_nth _ _ (0%nat, []) NA) as NA2. unfold im_len in *. rewrite NA2 in *. destruct (K7 a (nth_error_In _ _ NA)) as (A1 & A2 & _).
  assert (RA : peq p A (pscal (f * (co el d * Z.of_nat d)) r)).
  { intros i. rewrite pc_pscal. change (pc A i) with (co A i). destruct (Nat.lt_ge_cases i (fst a)) as [Hi|Hi].
    - specialize (HC i Hi). unfold im_co in HC. rewrite NA2 in HC. assert (RI : pc r i = co (snd a) i) by (rewrite HN; unfold pc, co; rewrite <- (firstn_skipn (fst a) (snd a)) at 2; rewrite app_nth1 by (rewrite firstn_length; lia); reflexivity). rewrite RI. exact HC.
    - rewrite HZ by exact Hi. rewrite (pc_over r i); [rewrite Z.mul_0_r; reflexivity|]. rewrite HN, firstn_length. lia. }
  exists (pscal (f * (co el d * Z.of_nat d)) q). assert (EQ2 : peq p (pmul X (pscal inv (deriv e))) (padd (pmul q e) r)) by (rewrite <- EQ; unfold nmul; rewrite (norm_peq p), DEN; [reflexivity|exact K1]).
  rewrite RA, DEL. intros i. pose proof (EQ2 i) as Y. rewrite pc_padd in Y.
  assert (Y2 : eqp p (pc (pmul X (pscal inv (deriv e))) i) (inv * pc (pmul X (deriv e)) i)) by (transitivity (pc (pscal inv (pmul X (deriv e))) i); [|rewrite pc_pscal; reflexivity]; apply (pc_m p); [|reflexivity]; rewrite (pmul_comm p), (pmul_scal_l p), (pmul_comm p); reflexivity).
  rewrite pc_psub, pc_pscal. assert (Y3 : eqp p (pc (pmul (pscal f (pscal (co el d) (deriv e))) X) i) (f * (co el d * pc (pmul X (deriv e)) i))) by (transitivity (pc (pscal f (pscal (co el d) (pmul X (deriv e)))) i); [|rewrite !pc_pscal; reflexivity]; apply (pc_m p); [|reflexivity]; rewrite !(pmul_scal_l p), (pmul_comm p); reflexivity).
  assert (Y4 : eqp p (pc (pmul (pscal (f * (co el d * Z.of_nat d)) q) e) i) (f * (co el d * Z.of_nat d) * pc (pmul q e) i)) by (transitivity (pc (pscal (f * (co el d * Z.of_nat d)) (pmul q e)) i); [|rewrite pc_pscal; reflexivity]; apply (pc_m p); [|reflexivity]; rewrite (pmul_scal_l p); reflexivity).
  rewrite Y3, Y4. rewrite Y2 in Y. set (w := pc (pmul X (deriv e)) i) in *. set (y1 := pc (pmul q e) i) in *. set (y2 := pc r i) in *. clearbody w y1 y2. destruct Y as [z1 Z1]. destruct DI as [z2 Z2]. unfold eqp. exists (f * co el d * (- w * z2 + Z.of_nat d * z1)).
  assert (E1 : y2 = inv * w - y1 - z1 * p) by lia. rewrite E1. assert (E2 : Z.of_nat d * inv = 1 + z2 * p) by lia.
  transitivity (f * co el d * (w - (Z.of_nat d * inv) * w + Z.of_nat d * z1 * p)); [ring|]. rewrite E2. ring.
Qed.
(** Hence, modulo the primes used and modulo q, with E = s_elim the coordinate X satisfies f * E' * X = A modulo the eliminating polynomial:
    X is A / (f * E') at its roots. All the images of coordinate k have the same length. *)
Theorem C63_meaning d nc im0 bs s k A f n : images_ok d nc (im0 :: goods bs) -> run bs (init im0) = Some (Finished s) -> nth_error (s_coords s) k = Some A -> nth_error (s_cfs s) k = Some f ->
  (forall im, In im (im0 :: goods bs) -> im_len k im = n) -> out_denom s = deriv (s_elim s) /\
  exists q U, In q (goods bs) /\ incl (im0 :: U) (im0 :: goods bs) /\ NoDup (map im_p (im0 :: U ++ [q])) /\
    forall im X, In im (im0 :: U) \/ im = q /\ ~ (im_p q | f) -> normalised im k X -> elim_agrees d (s_elim s) im -> pdvd (im_p im) (im_elim im) (psub (pmul (pscal f (out_denom s)) X) A).
Proof.
  intros OK HE HA HF HN. destruct (C63_sound d nc im0 bs s OK HE) as (L1 & L2 & _ & q & Q1 & _ & Q2 & _ & HC). destruct (HC k A f HA HF) as (_ & _ & C2 & C3 & U & im1 & I1 & N1 & M1 & G1). split; [reflexivity|]. exists q, U. split; [exact Q1|]. split; [exact I1|]. split; [exact N1|]. intros im X Him HX HEL.
  assert (IA : In im (im0 :: goods bs)) by (destruct Him as [Him|(-> & _)]; [apply I1; exact Him|right; exact Q1]). assert (Hk : (k < nc)%nat) by (rewrite <- L2; apply nth_error_Some; congruence). destruct OK as (Hd & HO & _).
  apply (meaning_at d nc im k X (s_elim s) f A); try assumption; [apply HO; exact IA| |].
  - destruct Him as [Him|(-> & NF)]; [|destruct C3 as [C3|C3]; [contradiction|exact C3]]. specialize (G1 im Him). rewrite (HN im1 (I1 im1 M1)), (HN im IA), Nat.min_id in G1. rewrite (HN im IA). exact G1.
  - intros j Hj. apply C2. intros im' Him'. rewrite (HN im' Him'), <- (HN im IA). exact Hj.
Qed.
Print Assumptions C63_meaning.

(** T^2 - 3/7 T + 5/2 with the coordinates 2/3 T + 1/5 and 4: one bad prime, two primes at a time *)
Definition ex_im p e c := {| im_p := p; im_elim := e; im_coords := c |}.
Definition ex_t im := {| t_im := Some im; t_undef := 0 |}.
Definition ex_0 := ex_im 1009 [507; 432; 1] [(2%nat, [916; 58]); (2%nat, [864; 4])].
Definition ex_bs : list (bool * list thread) :=
  [(true, [ex_t (ex_im 1013 [509; 289; 1] [(2%nat, [61; 174]); (2%nat, [578; 4])]); {| t_im := None; t_undef := 0 |}]);
   (true, [ex_t (ex_im 1019 [512; 873; 1] [(2%nat, [731; 932]); (2%nat, [727; 4])]); ex_t (ex_im 1021 [513; 583; 1] [(2%nat, [431; 963]); (2%nat, [145; 4])])]);
   (false, [ex_t (ex_im 1031 [518; 736; 1] [(2%nat, [828; 236]); (2%nat, [441; 4])]); ex_t (ex_im 1033 [519; 885; 1] [(2%nat, [259; 325]); (2%nat, [737; 4])])]);
   (true, [ex_t (ex_im 1039 [522; 148; 1] [(2%nat, [498; 505]); (2%nat, [296; 4])]); ex_t (ex_im 1049 [527; 599; 1] [(2%nat, [303; 360]); (2%nat, [149; 4])])]);
   (true, [ex_t (ex_im 1051 [528; 450; 1] [(2%nat, [744; 691]); (2%nat, [900; 4])])])].
Example C63_ex_run : exists s, run ex_bs (init ex_0) = Some (Finished s) /\ s_elim s = [35; -6; 14] /\ s_coords s = [[-718; 144]; [-24; 112]] /\ s_cfs s = [15; 1] /\ out_denom s = [-6; 28].
Proof.
  assert (E : match run ex_bs (init ex_0) with Some (Finished s) => s_elim s = [35; -6; 14] /\ s_coords s = [[-718; 144]; [-24; 112]] /\ s_cfs s = [15; 1] /\ out_denom s = [-6; 28] | _ => False end) by (vm_compute; repeat split; reflexivity). destruct (run ex_bs (init ex_0)) as [[s| |]|]; try contradiction. exists s. split; [reflexivity|exact E].
Qed.
Lemma small_prime p : 1 < p -> (forallb (fun d => negb (p mod (Z.of_nat d) =? 0)) (seq 2 (Z.to_nat p - 2))) = true -> prime p.
Proof.
  intros H F. apply prime_alt. split; [exact H|]. intros n Hn D. rewrite forallb_forall in F. specialize (F (Z.to_nat n)). rewrite in_seq in F. assert (G : (2 <= Z.to_nat n < 2 + (Z.to_nat p - 2))%nat) by lia. specialize (F G). rewrite Z2Nat.id in F by lia. apply Znumtheory.Zdivide_mod in D. rewrite D in F. discriminate.
Qed.
Ltac im_ok := split; [split; [apply small_prime; [cbn; lia|vm_compute; reflexivity]|cbn; lia]|]; split; [reflexivity|]; split; [reflexivity|]; split; [intros x Hx; cbn in Hx |- *; intuition lia|]; split; [reflexivity|]; intros a Ha; cbn in Ha; repeat (destruct Ha as [<-|Ha]; [split; [cbn; lia|]; split; [reflexivity|]; intros x Hx; cbn in Hx |- *; intuition lia|]); contradiction.
Example C63_ex_ok : images_ok 2 2 (ex_0 :: goods ex_bs).
Proof.
  split; [lia|]. split; [|cbn; repeat constructor; cbn; intuition discriminate]. intros im Him. cbn in Him. repeat (destruct Him as [<-|Him]; [im_ok|]). contradiction.
Qed.
Example C63_ex_len : forall im, In im (ex_0 :: goods ex_bs) -> im_len 0 im = 2%nat.
Proof. intros im Him. cbn in Him. repeat (destruct Him as [<-|Him]; [reflexivity|]). contradiction. Qed.
Example C63_ex_norm : normalised ex_0 0 [202; 337].
Proof. vm_compute. reflexivity. Qed.

(** The bound matters: the coordinate 1 + 1009*1013*1019*1021 of the point T = -2 is lifted to 1 *)
Definition ex_one : list (bool * list thread) := map (fun p => (true, [ex_t (ex_im p [2; 1] [(1%nat, [1])])])) [1013; 1019; 1021].
Example C63_bound_needed : exists s, run ex_one (init (ex_im 1009 [2; 1] [(1%nat, [1])])) = Some (Finished s) /\ s_elim s = [2; 1] /\ s_coords s = [[1]] /\ s_cfs s = [1] /\
  forall im, In im (ex_im 1009 [2; 1] [(1%nat, [1])] :: goods ex_one) -> (im_p im | 1 * im_co 0 0 im - (1 + 1009 * 1013 * 1019 * 1021)).
Proof.
  set (i0 := ex_im 1009 [2; 1] [(1%nat, [1])]). assert (E : match run ex_one (init i0) with Some (Finished s) => s_elim s = [2; 1] /\ s_coords s = [[1]] /\ s_cfs s = [1] | _ => False end) by (vm_compute; repeat split; reflexivity). destruct (run ex_one (init i0)) as [[s| |]|]; try contradiction. exists s. split; [reflexivity|]. destruct E as (E1 & E2 & E3). split; [exact E1|]. split; [exact E2|]. split; [exact E3|].
  intros im Him. cbn in Him. repeat (destruct Him as [<-|Him]; [apply Z.mod_divide; [discriminate|reflexivity]|]). contradiction.
Qed.
(** Only the coefficients below the length of the image are checked: the coordinate is 1 modulo three primes and 0 modulo the fourth, with which the
    result 1 is checked; it is accepted although it does not agree *)
Definition ex_zero : list (bool * list thread) := map (fun p => (true, [ex_t (ex_im p [2; 1] [(1%nat, [1])])])) [1013; 1019] ++ [(true, [ex_t (ex_im 1021 [2; 1] [(0%nat, [0])])])].
Example C63_zero_image_unchecked : exists s, run ex_zero (init (ex_im 1009 [2; 1] [(1%nat, [1])])) = Some (Finished s) /\ s_coords s = [[1]] /\ s_cfs s = [1] /\
  ~ coord_agrees 1 (s_elim s) 1 [1] 0 1 (ex_im 1021 [2; 1] [(0%nat, [0])]) /\ images_ok 1 1 (ex_im 1009 [2; 1] [(1%nat, [1])] :: goods ex_zero).
Proof.
  set (i0 := ex_im 1009 [2; 1] [(1%nat, [1])]). assert (E : match run ex_zero (init i0) with Some (Finished s) => s_coords s = [[1]] /\ s_cfs s = [1] | _ => False end) by (vm_compute; repeat split; reflexivity). destruct (run ex_zero (init i0)) as [[s| |]|]; try contradiction. exists s. split; [reflexivity|]. destruct E as (E2 & E3). split; [exact E2|]. split; [exact E3|]. split.
  - intros H. specialize (H 0%nat ltac:(lia)). change (im_co 0 0 _) with 0 in H. rewrite Z.mul_0_r in H. change (1021 | 1) in H. apply Z.divide_pos_le in H; lia.
  - split; [lia|]. split; [|cbn; repeat constructor; cbn; intuition discriminate]. intros im Him. cbn in Him. repeat (destruct Him as [<-|Him]; [im_ok|]). contradiction.
Qed.

(** The test of a witness coefficient (trace, det) with a further prime is exact: it says yes precisely when the fraction reduces to the residue. *)
Theorem C63_witness w c p : prime p -> p < 2 ^ 31 -> 0 <= c < p -> ~ (p | w_den w) -> exists b, check_wit w c p = Some b /\ (b = true <-> (p | w_den w * c - w_num w)).
Proof.
  intros P B C D. destruct (verif_coef_ok (w_num w) (w_den w) p c (conj P B) C) as (b & E & H). exists b. split; [exact E|]. rewrite H. unfold verified. split; [intros [[_ X]|[X _]]; [exact X|contradiction]|intros X; left; auto].
Qed.
Print Assumptions C63_witness.
Example C63_witness_ex : check_wit {| w_idx := 1; w_crt := 0; w_num := 3; w_den := 7; w_done := 1 |} 153391690 1073741827 = Some true.
Proof. vm_compute. reflexivity. Qed.
