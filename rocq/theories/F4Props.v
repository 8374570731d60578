(** C23, C41, C42: the F4 engine. *)
From Coq Require Import ZArith NArith Arith List Bool Lia Permutation Sorted Znumtheory.
From Verif Require Import LinSpec MonoSpec MonoModel MonoSpecProofs MonoCmpProofs GbSpec GbProofs GbIdeal LaModel LaSpec LaProofs LaRowProofs LaProps F4Model UpdProofs UpdProps F4Rows SymbProofs SelProofs MatProofs RoundProofs FinalProofs.
Import ListNotations.
Open Scope Z_scope.

(** * Generators *)
Lemma eqp_unit_cancel p a x : prime p -> ~ eqp p a 0 -> eqp p (a * x) 0 -> eqp p x 0.
Proof.
  intros HP Ha Hx. unfold eqp in *. rewrite Z.sub_0_r in *. apply prime_mult in Hx; [|exact HP]. destruct Hx as [H|H]; [contradiction|exact H].
Qed.
Lemma combine_snd {A B} (l : list A) (l' : list B) : length l = length l' -> map snd (combine l l') = l'.
Proof. revert l'. induction l as [|a l IH]; intros [|b l'] H; try discriminate; [reflexivity|]. cbn. f_equal. apply IH. cbn in H. lia. Qed.
Lemma combine_fst {A B} (l : list A) (l' : list B) : length l = length l' -> map fst (combine l l') = l.
Proof. revert l'. induction l as [|a l IH]; intros [|b l'] H; try discriminate; [reflexivity|]. cbn. f_equal. apply IH. cbn in H. lia. Qed.

Section Gens.
Variable c : config.
Hypothesis CK : cfg_ok c.
Let o := c_o c.
Let nv := o_nv o.
Let lt := o_lt o.
Let p := c_p c.
Let MO : mono_order nv lt := o_lt_order o.
Let Hp : 1 < p := cfg_p c CK.

(** normalisation multiplies by a unit *)
Lemma normalize_poly_ok f : sorted_poly nv lt p f -> exists f' y, normalize_poly (c_k c) p f = Ok f' /\ mpoly nv lt p f' /\ ~ eqp p y 0 /\ peq nv p (cf f') (fun m => y * cf f m).
Proof.
  intros (Hne & Hc & Hd). destruct f as [|[x l] f]; [congruence|]. pose proof (Hc (x, l) (or_introl eq_refl)) as [Hx Hl]. cbn [fst snd] in Hx, Hl.
  unfold normalize_poly. cbn [length seq map fst combine]. set (cols := combine (seq 1 (length f)) (map fst f)).
  assert (Lc : length (seq 1 (length f)) = length (map fst f)) by (rewrite seq_length, map_length; reflexivity).
  assert (CO : cfs_ok p cols).
  { intros t Ht. assert (In (snd t) (map fst f)) by (rewrite <- (combine_snd _ _ Lc); apply in_map; exact Ht). apply in_map_iff in H as (s & E & Hs). rewrite <- E. destruct (Hc s (or_intror Hs)) as [H _]. lia. }
  rewrite (C46_normalize_initial (c_k c) p 0 x cols (ck_p c CK) (ck_k c CK) Hx CO).
  destruct (normalize_row_ok (c_k c) p (O, x) cols (ck_p c CK) (class_kern _ _ (ck_k c CK)) Hx) as (r' & y & E & Hy & Hm & M & R & _). cbn [fst snd] in *. rewrite E. cbn [of_opt rbind map snd combine].
  assert (Vals : map snd r' = map (fun t => (snd t * y) mod p) cols) by (rewrite R, map_map; reflexivity).
  assert (Vals' : map snd r' = map (fun t => (fst t * y) mod p) f).
  { rewrite Vals. rewrite <- (map_map snd (fun z => (z * y) mod p)). unfold cols. rewrite (combine_snd _ _ Lc), map_map. reflexivity. }
  rewrite Vals'. set (f' := combine (map (fun t => (fst t * y) mod p) f) (map snd f)).
  assert (Ef : f' = map (fun t => ((fst t * y) mod p, snd t)) f) by (unfold f'; clear; induction f as [|t f IH]; cbn; [reflexivity|]; rewrite IH; reflexivity).
  exists ((1, l) :: f'), y. split; [reflexivity|]. split; [split; [|eexists _, _; reflexivity]|split].
  - split; [discriminate|]. split.
    + intros t [<-|Ht]; [cbn; split; [lia|exact Hl]|]. rewrite Ef in Ht. apply in_map_iff in Ht as (s & <- & Hs). destruct (Hc s (or_intror Hs)) as [H1 H2]. cbn [fst snd]. split; [apply scale_nonzero; [apply (ck_p c CK)|exact H1|exact Hy]|exact H2].
    + intros i j s t Hi Hj Hij. assert (Nth : forall i s, nth_error ((1, l) :: f') i = Some s -> exists s0, nth_error ((x, l) :: f) i = Some s0 /\ snd s0 = snd s).
      { intros [|i'] s' H; [injection H as <-; exists (x, l); auto|]. cbn [nth_error] in H |- *. rewrite Ef, nth_error_map in H. destruct (nth_error f i') as [s0|]; [|discriminate]. injection H as <-. exists s0. auto. }
      destruct (Nth i s Hi) as (s0 & H1 & <-). destruct (Nth j t Hj) as (t0 & H2 & <-). apply (Hd i j); assumption.
  - intros K. rewrite K in Hm. apply Z.divide_opp_r in Hm. replace (- (0 * x - 1)) with 1 in Hm by ring. apply Z.divide_pos_le in Hm; lia.
  - intros m _. rewrite Ef. cbn [cf fst snd]. assert (T : eqp p (cf (map (fun t => ((fst t * y) mod p, snd t)) f) m) (y * cf f m)).
    { clear - Hp. induction f as [|t f IH]; cbn [map cf fst snd]; [exists 0; ring|]. destruct (mono_dec (snd t) m); [|exact IH]. rewrite IH, (eqp_mod p (fst t * y)) by lia. exists 0. ring. }
    destruct (mono_dec l m); [|exact T]. rewrite T. destruct Hm as (q & Hq). exists (- q). lia.
Qed.
Lemma normalize_all F : Forall (sorted_poly nv lt p) F -> exists F', rmap (normalize_poly (c_k c) p) F = Ok F' /\ Forall (mpoly nv lt p) F' /\ same_ideal nv p (pfs F) (pfs F').
Proof.
  intros HF. assert (K : exists F', rmap (normalize_poly (c_k c) p) F = Ok F' /\ Forall2 (fun f f' => mpoly nv lt p f' /\ exists y, ~ eqp p y 0 /\ peq nv p (cf f') (fun m => y * cf f m)) F F').
  { induction HF as [|f F Hf HF (F' & E & H)]; [exists []; split; [reflexivity|constructor]|]. destruct (normalize_poly_ok f Hf) as (f' & y & E' & M & N & Q). exists (f' :: F'). cbn [rmap]. rewrite E'. cbn [rbind]. rewrite E. split; [reflexivity|]. constructor; [|exact H]. split; [exact M|]. exists y. auto. }
  destruct K as (F' & E & H). exists F'. split; [exact E|]. split.
  - apply Forall_forall. intros f Hf. destruct (F2_in_r _ _ _ _ H Hf) as (g & _ & M & _). exact M.
  - apply same_ideal_intro.
    + intros h (f & Hf & ->). destruct (F2_in_l _ _ _ _ H Hf) as (f' & Hf' & M & y & Ny & Q). assert (Inv : exists z, eqp p (z * y) 1).
      { assert (G : Zis_gcd y p 1). { apply Zis_gcd_sym. destruct (prime_rel_prime p (ck_p c CK) y) as [A B C]; [|constructor; assumption]. intros K. apply Ny. unfold eqp. rewrite Z.sub_0_r. exact K. }
        destruct (Zis_gcd_bezout _ _ _ G) as [u v Huv]. exists u. exists (- v). lia. }
      destruct Inv as (z & Hz). eapply ls_eq; [apply (lspan_scale nv p _ z); apply ideal_gen; exists f'; split; [exact Hf'|reflexivity]|]. intros m Lm'. cbv beta. rewrite (Q m Lm'). replace (z * (y * cf f m)) with ((z * y) * cf f m) by ring. rewrite Hz. exists 0. ring.
    + intros h (f' & Hf' & ->). destruct (F2_in_r _ _ _ _ H Hf') as (f & Hf & M & y & Ny & Q). eapply ls_eq; [apply (lspan_scale nv p _ y); apply ideal_gen; exists f; split; [exact Hf|reflexivity]|]. apply peq_sym. exact Q.
Qed.

Definition basis0 : basis := {| b_el := []; b_red := []; b_lmps := []; b_lo := O; b_mlt := 0; b_nold := O; b_const := false |}.
Lemma start_ok F' : Forall (mpoly nv lt p) F' -> okl (update_basis o basis0 [] (map (mk_elt (o_nev o)) F')) (fun a => finv c F' (fst a) (snd a)).
Proof.
  intros HF. rewrite Forall_forall in HF. assert (U0 : uinv nv basis0 [] (fun _ _ => False)).
  { constructor; cbn [basis0 b_el b_red b_lmps b_lo length]; [reflexivity|intros e []|intros q []|intros i j []|intros; lia| |lia|intros i []|intros; lia|constructor]. intros D F HD i j Hi. lia. }
  pose proof (update_uinv nv o basis0 [] _ (map (mk_elt (o_nev o)) F') U0) as K. destruct (update_basis o basis0 [] (map (mk_elt (o_nev o)) F')) as [[b ps]| | |]; cbn [okl fst snd]; auto; try (apply K; intros e He; apply in_map_iff in He as (f & <- & Hf); split; [apply elt_deg_nonneg|]; apply (mpoly_lm nv lt p f (HF f Hf))).
  destruct K as (U & Eel & Elo & Ec); [intros e He; apply in_map_iff in He as (f & <- & Hf); split; [apply elt_deg_nonneg|]; apply (mpoly_lm nv lt p f (HF f Hf))|]. cbn [basis0 b_el b_const app] in Eel, Ec.
  assert (Pol : polys b = F') by (unfold polys; rewrite Eel, map_map; cbn [mk_elt e_pol]; apply map_id).
  constructor.
  - eapply select_uinv; [exact U|auto|intros i j []|intros i j (H1 & H2 & _); split; assumption|auto].
  - intros e He. rewrite Eel in He. apply in_map_iff in He as (f & <- & Hf). apply HF. exact Hf.
  - exact Elo.
  - intros f Hf. rewrite Pol. exact Hf.
  - intros f Hf. rewrite Pol in Hf. apply ideal_gen. exists f. auto.
  - rewrite Ec. discriminate.
Qed.
Lemma loop_mono fuel : forall fuel' r b ps, (fuel <= fuel')%nat -> f4_loop c fuel r b ps <> More -> f4_loop c fuel' r b ps = f4_loop c fuel r b ps.
Proof.
  induction fuel as [|fuel IH]; intros [|fuel'] r b ps Hf Hn; try reflexivity; [|lia|].
  - cbn [f4_loop] in *. destruct (done b ps); [reflexivity|congruence].
  - cbn [f4_loop] in *. destruct (done b ps); [reflexivity|]. assert (Nr : round c (S fuel) r b ps <> More) by (intros K; apply Hn; rewrite K; reflexivity). rewrite (round_mono c (S fuel) (S fuel')) by (auto; lia). destruct (round c (S fuel) r b ps) as [[b' ps']| | |]; cbn [rbind] in *; try reflexivity. apply IH; [lia|exact Hn].
Qed.

(** what is known of a finished run *)
Definition good_result (reduce_gb : bool) (F out : list (list (Z * mono))) : Prop :=
  same_ideal nv p (pfs F) (pfs out) /\ groebner nv lt p (pfs out) /\ minimal_basis nv lt p out /\ (forall f, In f out -> mpoly nv lt p f) /\
  (reduce_gb = true -> reduced_basis nv lt p out /\ ForallOrdPairs (fun f g => lt (lmono f) (lmono g)) out).
Lemma kept_leads b ps F' : finv c F' b ps -> done b ps = true ->
  let G := kpolys (b_el b) (final_lmps b) in
  (forall f, In f G -> In f (polys b)) /\ (forall f m, ideal nv p (pfs F') f -> is_lead nv lt p f m -> exists g, In g G /\ mdvd (lmono g) m).
Proof.
  intros HI Hd G. destruct (final_lmps_spec nv b ps _ (fi_u _ _ _ _ HI) (fi_lo _ _ _ _ HI)) as (L1 & L2 & L3 & L4). split.
  - intros f Hf. apply in_map_iff in Hf as (i & <- & Hi). apply in_map. apply nth_In. auto.
  - intros f m Hf Hm. destruct (done_groebner c CK F' b ps HI Hd) as [S1 S2]. apply S1 in Hf. destruct (S2 f m Hf Hm) as (g & l & (g0 & Hg0 & ->) & Hl & Hdv). apply in_map_iff in Hg0 as (e & <- & He). pose proof (mpoly_lead nv lt p MO Hp _ (fi_els _ _ _ _ HI e He)) as Le. rewrite (lead_unique nv lt p MO _ _ _ Hl Le) in Hdv.
    apply In_nth_error in He as (i & Hi). destruct (L3 i) as (r & Hr & Hrd); [apply nth_error_Some; congruence|]. exists (e_pol (nth r (b_el b) dd)). split; [apply in_map_iff; exists r; auto|]. rewrite (Lm_nth _ _ _ Hi) in Hrd. eapply mdvd_trans; [exact Hrd|exact Hdv].
Qed.
Lemma F2_nth {A B} (P : A -> B -> Prop) l l' i b : Forall2 P l l' -> nth_error l' i = Some b -> exists a, nth_error l i = Some a /\ P a b.
Proof. intros H. revert i. induction H as [|x y l l' Hx H IH]; intros [|i] E; try discriminate; [injection E as <-; exists x; auto|]. apply IH. exact E. Qed.

Theorem core_f4_ok F red : Forall (sorted_poly nv lt p) F -> exists N, forall fuel, okn fuel N (core_f4 c red fuel F) (good_result red F).
Proof.
  intros HF. destruct (normalize_all F HF) as (F' & EF & MF & SF). unfold core_f4. fold p o. rewrite EF. cbn [rbind]. fold basis0.
  pose proof (start_ok F' MF) as ST. destruct (update_basis o basis0 [] (map (mk_elt (o_nev o)) F')) as [[b0 ps0]| | |]; cbn [okl rbind fst snd] in *; [|exists O; intros; exact I|contradiction|contradiction].
  destruct (loop_ok c CK F' [] 0 b0 ps0 ST) as (N1 & H1); [intros x []|]. pose proof (H1 N1) as HX. destruct (f4_loop c N1 0 b0 ps0) as [b| | |] eqn:EX; cbn [okn] in HX.
  - destruct HX as (ps & HI & Hd). assert (Same : forall fuel, f4_loop c fuel 0 b0 ps0 = More /\ (fuel < N1)%nat \/ f4_loop c fuel 0 b0 ps0 = Ok b).
    { intros fuel. specialize (H1 fuel). destruct (f4_loop c fuel 0 b0 ps0) as [b1| | |] eqn:E; cbn [okn] in H1; [right|right|left; auto|contradiction]; (destruct (Nat.le_ge_cases fuel N1) as [L|L]; [rewrite <- E, <- (loop_mono fuel N1 0 b0 ps0 L), EX; [reflexivity|rewrite E; discriminate]|rewrite <- E, (loop_mono N1 fuel 0 b0 ps0 L), EX; [reflexivity|rewrite EX; discriminate]]). }
    destruct (final_lmps_spec nv b ps _ (fi_u _ _ _ _ HI) (fi_lo _ _ _ _ HI)) as (L1 & L2 & L3 & L4). destruct (kept_leads b ps F' HI Hd) as [K1 K2]. set (K := final_lmps b) in *. set (G := kpolys (b_el b) K) in *.
    pose proof (fi_els _ _ _ _ HI) as HE. assert (GF' : Forall (good nv lt) F') by (apply Forall_forall; intros f Hf; rewrite Forall_forall in MF; apply (mpoly_good nv lt p); auto).
    assert (GMp : forall f, In f G -> mpoly nv lt p f) by (intros f Hf; apply K1 in Hf; apply in_map_iff in Hf as (e & <- & He); apply HE; exact He).
    assert (Concl : forall out, (forall f, In f out -> mpoly nv lt p f) -> (forall f, In f out -> ideal nv p (pfs F') (cf f)) -> Permutation (map lmono out) (map lmono G) -> same_ideal nv p (pfs F) (pfs out) /\ groebner nv lt p (pfs out)).
    { intros out M I0 P. destruct (gb_subset nv lt p MO (P1 p Hp) F' out GF') as [A B].
      - apply Forall_forall. intros f Hf. apply (mpoly_good nv lt p). auto.
      - exact I0.
      - intros f m Hf Hm. destruct (K2 f m Hf Hm) as (g & Hg & Hdv). apply (in_map lmono) in Hg. apply (Permutation_in _ (Permutation_sym P)) in Hg. apply in_map_iff in Hg as (h & E & Hh). exists h. split; [exact Hh|]. change (lm h) with (lmono h). rewrite E. exact Hdv.
      - split; [|exact B]. intros f. rewrite (SF f). apply A. }
    assert (Ideal' : forall f, ideal nv p (pfs (polys b)) f -> ideal nv p (pfs F') f) by (apply ideal_incl; intros f (g & Hg & ->); apply (fi_ideal _ _ _ _ HI); exact Hg).
    assert (MinG : forall i j f g, nth_error G i = Some f -> nth_error G j = Some g -> i <> j -> ~ mdvd (lmono f) (lmono g)).
    { intros i j f g Hi Hj N. unfold G, kpolys in Hi, Hj. rewrite nth_error_map in Hi, Hj. destruct (nth_error K i) as [ki|] eqn:Ei; [|discriminate]. destruct (nth_error K j) as [kj|] eqn:Ej; [|discriminate]. injection Hi as <-. injection Hj as <-. apply (L4 ki kj); [eapply nth_error_In; eassumption|eapply nth_error_In; eassumption|]. intros ->. apply N. apply (proj1 (NoDup_nth_error K) L2); [apply nth_error_Some; congruence|congruence]. }
    destruct red.
    + destruct (reduce_final_ok c CK (b_el b) K HE L1 L2 L4) as (N2 & H2). exists (Nat.max N1 N2). intros fuel. destruct (Same fuel) as [[-> L]| ->]; cbn [rbind okn]; [lia|]. eapply okn_imp; [apply H2|lia|]. intros out [S1 S2 S3 S4 S5]. fold o nv lt p in S1, S2, S4, S5. fold G in S3, S4.
      destruct (Concl out S1) as [Q1 Q2]; [intros f Hf; apply Ideal'; apply S2; exact Hf|exact S3|].
      assert (Lead : forall f l, In f out -> is_lead nv lt p (cf f) l -> l = lmono f) by (intros f l Hf Hl; apply (lead_unique nv lt p MO (cf f)); [exact Hl|apply mpoly_lead; auto]).
      assert (InG : forall f, In f out -> exists g, In g G /\ lmono g = lmono f) by (intros f Hf; apply (in_map lmono) in Hf; apply (Permutation_in _ S3) in Hf; apply in_map_iff in Hf as (g & E & Hg); exists g; auto).
      assert (NdL : forall i j f g, nth_error out i = Some f -> nth_error out j = Some g -> i <> j -> lmono f <> lmono g).
      { intros i j f g Hi Hj N E. destruct (Nat.lt_trichotomy i j) as [L|[L|L]]; [|contradiction|].
        - pose proof (FOP_nth _ _ S5 i j f g L Hi Hj) as T. cbv beta in T. rewrite E in T. apply (lt_irr nv lt MO _ T).
        - pose proof (FOP_nth _ _ S5 j i g f L Hj Hi) as T. cbv beta in T. rewrite E in T. apply (lt_irr nv lt MO _ T). }
      assert (Red : forall i j f g m, nth_error out i = Some f -> nth_error out j = Some g -> i <> j -> ~ eqp p (cf g m) 0 -> ~ mdvd (lmono f) m).
      { intros i j f g m Hi Hj N Nz Hdv. assert (Hf : In f out) by (eapply nth_error_In; eassumption). assert (Hg : In g out) by (eapply nth_error_In; eassumption).
        destruct (cf_nz g m) as (t & Ht & <-); [intros K0; apply Nz; rewrite K0; reflexivity|]. destruct (InG f Hf) as (f0 & Hf0 & E0). rewrite <- E0 in Hdv. destruct (S4 g t Hg Ht) as [E|E]; [|apply (E f0 Hf0); exact Hdv].
        destruct (InG g Hg) as (g0 & Hg0 & E1). rewrite E, <- E1 in Hdv. apply In_nth_error in Hf0 as (i0 & Hi0). apply In_nth_error in Hg0 as (j0 & Hj0). apply (MinG i0 j0 f0 g0 Hi0 Hj0); [|exact Hdv]. intros ->. apply (NdL i j f g Hi Hj N). congruence. }
      split; [exact Q1|]. split; [exact Q2|]. split; [|split; [exact S1|]].
      * intros i j f g l m Hi Hj N Hl Hm. rewrite (Lead f l) by (try exact Hl; eapply nth_error_In; eassumption). apply (Red i j f g m Hi Hj N). apply Hm.
      * intros _. split; [|exact S5]. split.
        -- intros f Hf. exists (lmono f). split; [apply mpoly_lead; auto|]. pose proof (good_lc nv lt MO f (mpoly_good nv lt p f (S1 f Hf))) as E. change (lm f) with (lmono f) in E. rewrite E. reflexivity.
        -- intros i j f g l m Hi Hj N Hl _ Nz. rewrite (Lead f l) by (try exact Hl; eapply nth_error_In; eassumption). apply (Red i j f g m Hi Hj N Nz).
    + exists N1. intros fuel. destruct (Same fuel) as [[-> L]| ->]; cbn [rbind okn]; [exact L|]. cbv zeta; fold K; rewrite (kpolys_ok c (b_el b) K L1). fold G. cbn [okn]. destruct (Concl G GMp) as [Q1 Q2]; [intros f Hf; apply Ideal'; apply ideal_gen; exists f; split; [apply K1; exact Hf|reflexivity]|reflexivity|].
      split; [exact Q1|]. split; [exact Q2|]. split; [|split; [exact GMp|discriminate]]. intros i j f g l m Hi Hj N Hl Hm. rewrite (lead_unique nv lt p MO _ _ _ Hl (mpoly_lead nv lt p MO Hp f (GMp f (nth_error_In _ _ Hi)))). rewrite (lead_unique nv lt p MO _ _ _ Hm (mpoly_lead nv lt p MO Hp g (GMp g (nth_error_In _ _ Hj)))). apply (MinG i j); assumption.
  - exists N1. intros fuel. specialize (H1 fuel). destruct (f4_loop c fuel 0 b0 ps0) as [b1| | |] eqn:E; cbn [okn rbind] in *; [|exact I|exact H1|contradiction]. exfalso. destruct (Nat.le_ge_cases fuel N1) as [L|L]; [rewrite (loop_mono fuel N1 0 b0 ps0 L) in EX by congruence; congruence|rewrite (loop_mono N1 fuel 0 b0 ps0 L) in E by congruence; congruence].
  - lia.
  - contradiction.
Qed.
End Gens.

(** * Equality of stored polynomials and of sorted lists *)
Section Uniq.
Variables (nv : nat) (lt : mono -> mono -> Prop) (p : Z).
Hypothesis MO : mono_order nv lt.
Hypothesis Hp : 1 < p.
Lemma eqp_small a b : 0 < a < p -> 0 < b < p -> eqp p a b -> a = b.
Proof. intros Ha Hb (q & Hq). assert (- p < q * p < p) by lia. assert (q = 0) by nia. subst q. lia. Qed.
Lemma eqp_small0 a : 0 < a < p -> ~ eqp p a 0.
Proof. intros Ha (q & Hq). rewrite Z.sub_0_r in Hq. assert (0 < q < 1) by nia. lia. Qed.
Lemma sp_above (t : Z * mono) (f : list (Z * mono)) m : sorted_poly nv lt p (t :: f) -> lt (snd t) m -> length m = nv -> cf (t :: f) m = 0.
Proof.
  intros H Ht Lm'. apply cf_not_in. intros s [<-|Hs] E.
  - subst m. apply (lt_irr nv lt MO _ Ht).
  - pose proof (sp_tail nv lt p t f H s Hs) as K. rewrite E in K. apply (lt_irr nv lt MO m). apply (lt_tr nv lt MO _ (snd t)); auto. apply H. left. reflexivity.
Qed.
Lemma sorted_poly_eq : forall f g : list (Z * mono), f = [] \/ sorted_poly nv lt p f -> g = [] \/ sorted_poly nv lt p g -> peq nv p (cf f) (cf g) -> f = g.
Proof.
  assert (Ne : forall (t : Z * mono) f, sorted_poly nv lt p (t :: f) -> length (snd t) = nv /\ ~ eqp p (cf (t :: f) (snd t)) 0).
  { intros t f H. pose proof H as (_ & H1 & _). split; [apply H1; left; reflexivity|]. rewrite (sp_cf nv lt p MO (t :: f) t H (or_introl eq_refl)). apply eqp_small0. apply H1. left. reflexivity. }
  induction f as [|t f IH]; intros g Hf Hg E.
  - destruct g as [|s g]; [reflexivity|]. exfalso. destruct Hg as [|Hg]; [discriminate|]. destruct (Ne s g Hg) as [L N]. apply N. rewrite <- (E _ L). reflexivity.
  - destruct Hf as [|Hf]; [discriminate|]. destruct (Ne t f Hf) as [Lt Nt]. destruct g as [|s g]; [exfalso; apply Nt; rewrite (E _ Lt); reflexivity|]. destruct Hg as [|Hg]; [discriminate|]. destruct (Ne s g Hg) as [Ls Ns].
    assert (Em : snd t = snd s).
    { destruct (lt_tot nv lt MO (snd t) (snd s) Lt Ls) as [K|[K|K]]; [|exact K|]; exfalso.
      - apply Ns. rewrite <- (E _ Ls), (sp_above t f (snd s) Hf K Ls). reflexivity.
      - apply Nt. rewrite (E _ Lt), (sp_above s g (snd t) Hg K Lt). reflexivity. }
    assert (Ec : fst t = fst s).
    { apply eqp_small; [apply Hf; left; reflexivity|apply Hg; left; reflexivity|]. rewrite <- (sp_cf nv lt p MO (t :: f) t Hf (or_introl eq_refl)), <- (sp_cf nv lt p MO (s :: g) s Hg (or_introl eq_refl)). rewrite <- Em. apply E. exact Lt. }
    assert (t = s) by (destruct t, s; cbn in *; congruence). subst s. f_equal. apply IH.
    + destruct f; [left; reflexivity|right; eapply sp_rest; [discriminate|exact Hf]].
    + destruct g; [left; reflexivity|right; eapply sp_rest; [discriminate|exact Hg]].
    + intros m Lm'. specialize (E m Lm'). cbn [cf] in E. destruct (mono_dec (snd t) m) as [<-|]; [|exact E]. destruct E as (q & Hq). exists q. lia.
Qed.
End Uniq.
Lemma sorted_unique {A} (R : A -> A -> Prop) (D : A -> Prop) : (forall a, D a -> ~ R a a) -> (forall a b c, D a -> D b -> D c -> R a b -> R b c -> R a c) ->
  forall l1 l2, (forall a, In a l1 -> D a) -> ForallOrdPairs R l1 -> ForallOrdPairs R l2 -> (forall a, In a l1 <-> In a l2) -> l1 = l2.
Proof.
  intros Irr Tr. induction l1 as [|x l1 IH]; intros l2 D1 H1 H2 E.
  - destruct l2 as [|y l2]; [reflexivity|]. destruct (proj2 (E y) (or_introl eq_refl)).
  - destruct l2 as [|y l2]; [destruct (proj1 (E x) (or_introl eq_refl))|]. inversion H1 as [|? ? A1 A2]; subst. inversion H2 as [|? ? B1 B2]; subst. rewrite Forall_forall in A1, B1.
    assert (Dx : D x) by (apply D1; left; reflexivity). assert (Dy : D y) by (apply D1; apply E; left; reflexivity).
    assert (x = y).
    { destruct (proj1 (E x) (or_introl eq_refl)) as [|Hx]; [congruence|]. destruct (proj2 (E y) (or_introl eq_refl)) as [|Hy]; [congruence|]. exfalso. apply (Irr x Dx). apply (Tr x y x); auto. }
    subst y. f_equal. apply IH; auto; [intros a Ha; apply D1; right; exact Ha|]. intros a. split; intros Ha.
    + destruct (proj1 (E a) (or_intror Ha)) as [<-|]; [|assumption]. exfalso. apply (Irr x Dx). apply A1. exact Ha.
    + destruct (proj2 (E a) (or_intror Ha)) as [<-|]; [|assumption]. exfalso. apply (Irr x Dx). apply B1. exact Ha.
Qed.

(** * C23 *)
(** The result, for every prime, every kernel admissible for it, every maximal number of selected pairs, every way of
    breaking ties when pairs are sorted, every value read behind the pair set, every schedule of the linear algebra. *)
Theorem C23_sound : forall c red fuel F out, cfg_ok c -> Forall (sorted_poly (o_nv (c_o c)) (o_lt (c_o c)) (c_p c)) F -> core_f4 c red fuel F = Ok out ->
  same_ideal (o_nv (c_o c)) (c_p c) (pfs F) (pfs out) /\
  groebner (o_nv (c_o c)) (o_lt (c_o c)) (c_p c) (pfs out) /\
  minimal_basis (o_nv (c_o c)) (o_lt (c_o c)) (c_p c) out /\
  (forall f, In f out -> sorted_poly (o_nv (c_o c)) (o_lt (c_o c)) (c_p c) f /\ exists m f', f = (1, m) :: f') /\
  (red = true -> reduced_basis (o_nv (c_o c)) (o_lt (c_o c)) (c_p c) out /\ ForallOrdPairs (fun f g => o_lt (c_o c) (lmono f) (lmono g)) out).
Proof. intros c red fuel F out CK HF E. destruct (core_f4_ok c CK F red HF) as (N & H). specialize (H fuel). rewrite E in H. exact H. Qed.
Print Assumptions C23_sound.

(** The computation ends, without undefined behaviour. Limit: an exponent vector of total degree 2^16 or more, or a matrix
    with too many columns for the 16-bit and 8-bit kernels' counters, occurred. *)
Theorem C23_terminates : forall c red F, cfg_ok c -> Forall (sorted_poly (o_nv (c_o c)) (o_lt (c_o c)) (c_p c)) F ->
  exists N, forall fuel, (N <= fuel)%nat -> core_f4 c red fuel F = Limit \/ exists out, core_f4 c red fuel F = Ok out.
Proof.
  intros c red F CK HF. destruct (core_f4_ok c CK F red HF) as (N & H). exists N. intros fuel Hf. specialize (H fuel). destruct (core_f4 c red fuel F); cbn [okn] in H; eauto; [lia|contradiction].
Qed.
Print Assumptions C23_terminates.

(** Reduced output is a function of the ideal, the ordering and the prime only. *)
Theorem C23_unique : forall c1 c2 fuel1 fuel2 F1 F2 out1 out2, cfg_ok c1 -> cfg_ok c2 -> c_o c1 = c_o c2 -> c_p c1 = c_p c2 ->
  Forall (sorted_poly (o_nv (c_o c1)) (o_lt (c_o c1)) (c_p c1)) F1 -> Forall (sorted_poly (o_nv (c_o c1)) (o_lt (c_o c1)) (c_p c1)) F2 ->
  same_ideal (o_nv (c_o c1)) (c_p c1) (pfs F1) (pfs F2) ->
  core_f4 c1 true fuel1 F1 = Ok out1 -> core_f4 c2 true fuel2 F2 = Ok out2 -> out1 = out2.
Proof.
  intros c1 c2 fuel1 fuel2 F1 F2 out1 out2 C1 C2 Eo Ep H1 H2 SI E1 E2. pose proof (cfg_p c1 C1) as Hp.
  destruct (C23_sound c1 true fuel1 F1 out1 C1 H1 E1) as (A1 & A2 & _ & A4 & A5). assert (H2' := H2). rewrite Eo, Ep in H2'. destruct (C23_sound c2 true fuel2 F2 out2 C2 H2' E2) as (B1 & B2 & _ & B4 & B5).
  rewrite <- Eo, <- Ep in B1, B2, B4, B5. destruct (A5 eq_refl) as [A6 A7]. destruct (B5 eq_refl) as [B6 B7]. clear A5 B5. set (nv := o_nv (c_o c1)) in *. set (lt := o_lt (c_o c1)) in *. set (p := c_p c1) in *. pose proof (o_lt_order (c_o c1)) as MO. fold nv lt in MO.
  assert (SO : same_ideal nv p (pfs out1) (pfs out2)) by (intros f; rewrite <- (A1 f), <- (B1 f); apply SI).
  assert (GA : Forall (good nv lt) out1) by (apply Forall_forall; intros f Hf; apply (mpoly_good nv lt p); apply A4; exact Hf). assert (GB : Forall (good nv lt) out2) by (apply Forall_forall; intros f Hf; apply (mpoly_good nv lt p); apply B4; exact Hf).
  assert (Half : forall o1 o2 : list (list (Z * mono)), (forall f, In f o1 -> sorted_poly nv lt p f) -> (forall f, In f o2 -> sorted_poly nv lt p f) -> (forall g, In g o1 -> exists h, In h o2 /\ lm g = lm h /\ peq nv p (cf g) (cf h)) -> forall f, In f o1 -> In f o2).
  { intros o1 o2 S1 S2 H f Hf. destruct (H f Hf) as (g & Hg & _ & E). rewrite (sorted_poly_eq nv lt p MO Hp f g); auto. }
  apply (sorted_unique (fun f g => lt (lmono f) (lmono g)) (fun f => length (lmono f) = nv)).
  - intros a _ K. apply (lt_irr nv lt MO _ K).
  - intros a b d La Lb Ld K1 K2. apply (lt_tr nv lt MO _ (lmono b)); assumption.
  - intros a Ha. apply (mpoly_lm nv lt p). apply A4. exact Ha.
  - exact A7.
  - exact B7.
  - intros f. split; [apply Half|apply Half]; try (intros g Hg; apply A4; exact Hg); try (intros g Hg; apply B4; exact Hg).
    + apply (reduced_unique nv lt p MO (P1 p Hp)); auto.
    + apply (reduced_unique nv lt p MO (P1 p Hp)); auto. intros g. symmetry. apply SO.
Qed.
Print Assumptions C23_unique.

(** * C41 *)
Lemma history_lo o b ps out : history o b ps out -> b_lo b = length (b_el b).
Proof.
  induction 1 as [|b ps out c H IH|b ps out news b' ps' H IH Hn E|b ps out sel rest H IH HP]; [reflexivity|exact IH| |exact IH].
  destruct (history_uinv o b ps out H) as (U & _). pose proof (update_uinv (o_nv o) o b ps (out_rel out) (map (mk_elt (o_nev o)) news) U) as K. rewrite E in K. apply K.
  intros e He. apply in_map_iff in He as (f & <- & Hf). split; [apply elt_deg_nonneg|]. rewrite Forall_forall in Hn. destruct (Hn f Hf) as (l & r & -> & Ll & _). exact Ll.
Qed.
(** After any history, the elements kept by the final removal have pairwise non-dividing leading monomials, and these
    generate the same monomial ideal as the leading monomials of all polynomials that ever entered the basis. *)
Theorem C41_minimal : forall o b ps out, history o b ps out ->
  NoDup (final_lmps b) /\ (forall i, In i (final_lmps b) -> exists f, nth_error (map e_pol (b_el b)) i = Some f) /\
  (forall i j f g, In i (final_lmps b) -> In j (final_lmps b) -> i <> j -> nth_error (map e_pol (b_el b)) i = Some f -> nth_error (map e_pol (b_el b)) j = Some g -> ~ mdvd (lmono f) (lmono g)) /\
  (forall m, (exists f, In f (map e_pol (b_el b)) /\ mdvd (lmono f) m) <-> (exists i f, In i (final_lmps b) /\ nth_error (map e_pol (b_el b)) i = Some f /\ mdvd (lmono f) m)).
Proof.
  intros o b ps out H. destruct (history_uinv o b ps out H) as (U & _). destruct (final_lmps_spec (o_nv o) b ps _ U (history_lo o b ps out H)) as (L1 & L2 & L3 & L4).
  assert (Nth : forall i f, nth_error (map e_pol (b_el b)) i = Some f -> Lm (b_el b) i = lmono f).
  { intros i f E. rewrite nth_error_map in E. destruct (nth_error (b_el b) i) as [e|] eqn:Ee; [|discriminate]. injection E as <-. rewrite (Lm_nth _ _ _ Ee). reflexivity. }
  assert (Ex : forall i, In i (final_lmps b) -> exists f, nth_error (map e_pol (b_el b)) i = Some f).
  { intros i Hi. specialize (L1 i Hi). destruct (nth_error (map e_pol (b_el b)) i) as [f|] eqn:E; [eauto|]. apply nth_error_None in E. rewrite map_length in E. lia. }
  split; [exact L2|]. split; [exact Ex|]. split.
  - intros i j f g Hi Hj N Ef Eg. rewrite <- (Nth i f Ef), <- (Nth j g Eg). apply L4; assumption.
  - intros m. split.
    + intros (f & Hf & Hd). apply In_nth_error in Hf as (i & Hi). destruct (L3 i) as (r & Hr & Hrd); [rewrite <- (map_length e_pol); apply nth_error_Some; congruence|]. destruct (Ex r Hr) as (g & Hg). exists r, g. split; [exact Hr|]. split; [exact Hg|]. rewrite (Nth r g Hg), (Nth i f Hi) in Hrd. eapply mdvd_trans; [exact Hrd|exact Hd].
    + intros (i & f & Hi & Hf & Hd). exists f. split; [eapply nth_error_In; eassumption|exact Hd].
Qed.
Print Assumptions C41_minimal.
(** During the computation the set lmps used for reduction divides everything too: it generates the same monomial ideal. *)
Theorem C41_running : forall o b ps out, history o b ps out ->
  NoDup (b_lmps b) /\
  (forall m, (exists f, In f (map e_pol (b_el b)) /\ mdvd (lmono f) m) <-> (exists i f, In i (b_lmps b) /\ nth_error (map e_pol (b_el b)) i = Some f /\ mdvd (lmono f) m)).
Proof.
  intros o b ps out H. destruct (history_uinv o b ps out H) as (U & _). pose proof (history_lo o b ps out H) as Hlo.
  assert (Nth : forall i e, nth_error (b_el b) i = Some e -> nth_error (map e_pol (b_el b)) i = Some (e_pol e)) by (intros i e E; rewrite nth_error_map, E; reflexivity).
  split; [apply (ui_nodup _ _ _ _ U)|]. intros m. split.
  - intros (f & Hf & Hd). apply in_map_iff in Hf as (e & <- & He). apply In_nth_error in He as (i & Hi). assert (Li : (i < length (b_el b))%nat) by (apply nth_error_Some; congruence).
    assert (K : forall r, (r < length (b_el b))%nat -> isred (b_red b) r = false -> mdvd (Lm (b_el b) r) (Lm (b_el b) i) -> exists i f, In i (b_lmps b) /\ nth_error (map e_pol (b_el b)) i = Some f /\ mdvd (lmono f) m).
    { intros r Hr Hred Hrd. destruct (nth_error (b_el b) r) as [g|] eqn:Eg; [|apply nth_error_None in Eg; lia]. exists r, (e_pol g). split; [apply (ui_all _ _ _ _ U); [rewrite Hlo; exact Hr|exact Hred]|]. split; [apply Nth; exact Eg|]. rewrite (Lm_nth _ _ _ Eg), (Lm_nth _ _ _ Hi) in Hrd. eapply mdvd_trans; [exact Hrd|exact Hd]. }
    destruct (isred (b_red b) i) eqn:Er; [|apply (K i Li Er); apply mdvd_refl]. destruct (ui_dom _ _ _ _ U i Li Er) as (r & Hr & Hred & Hrd). apply (K r Hr Hred Hrd).
  - intros (i & f & Hi & Hf & Hd). exists f. split; [eapply nth_error_In; eassumption|exact Hd].
Qed.
Print Assumptions C41_running.

(** * C42 *)
(** The states the main loop passes through *)
Inductive f4_state (c : config) (F : list (list (Z * mono))) : nat -> basis -> list spair -> Prop :=
| f4_start F' b ps : rmap (normalize_poly (c_k c) (c_p c)) F = Ok F' -> update_basis (c_o c) basis0 [] (map (mk_elt (o_nev (c_o c))) F') = Ok (b, ps) -> f4_state c F O b ps
| f4_round fuel r b ps b' ps' : f4_state c F r b ps -> done b ps = false -> round c fuel r b ps = Ok (b', ps') -> f4_state c F (S r) b' ps'.
Lemma f4_state_finv c (CK : cfg_ok c) F r b ps : Forall (sorted_poly (o_nv (c_o c)) (o_lt (c_o c)) (c_p c)) F -> f4_state c F r b ps -> exists F', finv c F' b ps.
Proof.
  intros HF H. induction H as [F' b ps E1 E2|fuel r b ps b' ps' H (F' & IH) Hd E].
  - destruct (normalize_all c CK F HF) as (F0 & E & M & _). rewrite E in E1. injection E1 as <-. pose proof (start_ok c F0 M) as K. rewrite E2 in K. exists F0. exact K.
  - exists F'. destruct (round_ok c CK F' r b ps IH) as (N & K); [unfold done in Hd; destruct ps; [rewrite orb_true_r in Hd|]; congruence|]. specialize (K fuel). rewrite E in K. apply K.
Qed.
Lemma nodup_app_intro {A} (l1 l2 : list A) : NoDup l1 -> NoDup l2 -> (forall x, In x l1 -> In x l2 -> False) -> NoDup (l1 ++ l2).
Proof.
  intros H1 H2. induction H1 as [|x l1 Hx H1 IH]; intros HD; [exact H2|]. cbn. constructor; [|apply IH; intros y K1 K2; apply (HD y); [right; exact K1|exact K2]].
  intros K. apply in_app_or in K as [K|K]; [contradiction|]. apply (HD x); [left; reflexivity|exact K].
Qed.
Lemma rmap_F2 {A B} (f : A -> res B) l : forall l', rmap f l = Ok l' -> Forall2 (fun a b => f a = Ok b) l l'.
Proof.
  induction l as [|a l IH]; intros l' H; cbn [rmap] in H; [injection H as <-; constructor|]. destruct (f a) as [b| | |] eqn:E; try discriminate. cbn [rbind] in H. destruct (rmap f l) as [l0| | |]; try discriminate. cbn [rbind] in H. injection H as <-. constructor; auto.
Qed.
Lemma symb_occurs els lmps skip oes fuel : forall i sht leads rr sht' leads' rr', symb fuel els lmps skip oes i sht leads rr = Ok (sht', leads', rr') ->
  (forall f, In f rr -> In f rr') /\ forall m, In m sht' -> In m sht \/ exists (f : list (Z * mono)) t, In f rr' /\ In t f /\ snd t = m.
Proof.
  induction fuel as [|fuel IH]; intros i sht leads rr sht' leads' rr' H; cbn [symb] in H; (destruct (nth_error sht i) as [m|]; [|injection H as <- _ <-; auto]); [discriminate|].
  destruct ((i <? oes)%nat && mem m skip); [apply (IH _ _ _ _ _ _ _ H)|]. destruct (find_red els lmps m) as [[g|]| | |]; try discriminate; cbn [rbind] in H; [|apply (IH _ _ _ _ _ _ _ H)].
  destruct (row_at els m g) as [r| | |]; try discriminate. cbn [rbind] in H. destruct (IH _ _ _ _ _ _ _ H) as [I1 I2]. split.
  - intros f Hf. apply I1. apply in_or_app. left. exact Hf.
  - intros x Hx. destruct (I2 x Hx) as [K|K]; [|right; exact K]. apply sht_row_in in K as [K|(t & Ht & E)]; [left; exact K|]. right. exists r, t. split; [apply I1; apply in_or_app; right; left; reflexivity|auto].
Qed.
Lemma matrix_occurs c fuel r b ps rest cols rr tr : round_matrix c fuel r b ps = Ok (rest, cols, (rr, tr)) ->
  forall m, In m (fst cols ++ snd cols) -> exists (f : list (Z * mono)) t, In f (rr ++ tr) /\ In t f /\ snd t = m.
Proof.
  unfold round_matrix. set (rs := runs _). destruct (rmap (run_rows (b_el b)) rs) as [rows| | |]; try discriminate. cbn [rbind].
  destruct (rmap (fun l => of_opt (hd_error l)) rows) as [rr0| | |] eqn:E0; try discriminate. cbn [rbind]. set (sht := sht_rows [] (concat rows)).
  destruct (symb fuel (b_el b) (b_lmps b) (map fst rs) (length sht) 0 sht (map fst rs) rr0) as [[[sht' leads] rr1]| | |] eqn:E1; try discriminate. cbn [rbind]. intros E. injection E as <- <- <- <-. cbn [columns fst snd].
  destruct (symb_occurs _ _ _ _ _ _ _ _ _ _ _ _ E1) as [I1 I2]. intros m Hm.
  assert (Hs : In m sht') by (apply in_app_or in Hm as [Hm|Hm]; apply (Permutation_in _ (msort_perm _ _)) in Hm; apply filter_In in Hm as [Hm _]; exact Hm).
  destruct (I2 m Hs) as [K|(f & t & K1 & K2)]; [|exists f, t; split; [apply in_or_app; left; exact K1|exact K2]].
  apply sht_rows_in in K as [[]|(f & t & K1 & K2 & K3)]. exists f, t. split; [|auto]. apply in_concat in K1 as (row & R1 & R2). apply rmap_F2 in E0. destruct (F2_in_l _ _ _ _ E0 R1) as (h & Hh & Eh). destruct row as [|h0 row]; [destruct R2|]. cbn in Eh. injection Eh as <-. apply in_or_app. destruct R2 as [<-|R2].
  - left. apply I1. exact Hh.
  - right. apply in_concat. exists row. split; [apply in_map_iff; exists (h0 :: row); auto|exact R2].
Qed.
Theorem C42_closed : forall c F r b ps fuel rest left right rr tr, cfg_ok c -> Forall (sorted_poly (o_nv (c_o c)) (o_lt (c_o c)) (c_p c)) F ->
  f4_state c F r b ps -> ps <> [] -> round_matrix c fuel r b ps = Ok (rest, (left, right), (rr, tr)) ->
  (** the columns are the monomials that occur, each once; the rows are multiples of basis elements *)
  NoDup (left ++ right) /\ (forall m, In m (left ++ right) <-> exists f t, In f (rr ++ tr) /\ In t f /\ snd t = m) /\
  (forall f, In f (rr ++ tr) -> exists g u, In g (map e_pol (b_el b)) /\ length u = o_nv (c_o c) /\ f = map (fun t => (fst t, mmul u (snd t))) g) /\
  (** every monomial divisible by a leading monomial of the basis leads exactly one reducer row *)
  NoDup (map lmono rr) /\
  (forall m, In m (left ++ right) -> (exists g, In g (map e_pol (b_el b)) /\ mdvd (lmono g) m) -> exists f, In f rr /\ lmono f = m) /\
  (** the left columns are the leading monomials of the reducer rows *)
  (forall m, In m left <-> exists f, In f rr /\ lmono f = m) /\
  (** both rows of every selected pair are there *)
  (exists sel, Permutation ps (sel ++ rest) /\ sel <> [] /\ forall q i g, In q sel -> i = s_g1 q \/ i = s_g2 q -> nth_error (map e_pol (b_el b)) i = Some g ->
     In (map (fun t => (fst t, mmul (mquo (s_lcm q) (lmono g)) (snd t))) g) (rr ++ tr)).
Proof.
  intros c F r b ps fuel rest left right rr tr CK HF HS Hne E. destruct (f4_state_finv c CK F r b ps HF HS) as (F' & HI).
  destruct (round_matrix_ok c r b ps _ (ck_o c CK) (cfg_p c CK) (ck_m c CK) (ck_sort c CK r) (fi_u _ _ _ _ HI) (fi_els _ _ _ _ HI) Hne) as (N & K). specialize (K fuel). rewrite E in K. cbn [okn] in K. destruct K as (sel & sht & leads & [S1 S2] & Ec & [M1 M2 M3 M4 M5 M6 M7 M8 M9]).
  pose proof (matrix_occurs c fuel r b ps rest (left, right) rr tr E) as Occ. cbn [fst snd] in Occ. injection Ec as El Er. cbn [fst snd] in *.
  pose proof (cfg_p c CK) as Hp. set (els := b_el b) in *. pose proof (fi_els _ _ _ _ HI) as HE. fold els in HE.
  assert (LI : forall m, In m left <-> In m leads).
  { intros m. rewrite El. split; intros K; [apply (Permutation_in _ (msort_perm _ _)) in K; apply filter_In in K as [_ K]; apply mem_iff; exact K|]. apply (Permutation_in _ (Permutation_sym (msort_perm _ _))). apply filter_In. split; [auto|apply mem_iff; exact K]. }
  assert (RI : forall m, In m right <-> In m sht /\ ~ In m leads).
  { intros m. rewrite Er. split; intros K; [apply (Permutation_in _ (msort_perm _ _)) in K; apply filter_In in K as [K1 K2]; split; [exact K1|]; apply mem_false; apply negb_true_iff; exact K2|]. apply (Permutation_in _ (Permutation_sym (msort_perm _ _))). apply filter_In. split; [apply K|]. apply negb_true_iff. apply mem_false. apply K. }
  assert (Dec : forall m, {In m leads} + {~ In m leads}) by (intros m; apply in_dec; apply mono_dec).
  assert (AI : forall m, In m (left ++ right) <-> In m sht) by (intros m; rewrite in_app_iff, LI, RI; destruct (Dec m) as [D0|D0]; split; [auto|auto|intros [K|[K _]]; auto|auto]).
  assert (LeadRow : forall m, In m leads <-> exists f, In f rr /\ lmono f = m).
  { intros m. split; intros K; [apply (Permutation_in _ (Permutation_sym M5)) in K; apply in_map_iff in K as (f & <- & Hf); exists f; auto|]. destruct K as (f & Hf & <-). apply (Permutation_in _ M5). apply in_map. exact Hf. }
  assert (Rows : forall f, In f (rr ++ tr) -> mrow (o_nv (c_o c)) els f /\ forall t, In t f -> In (snd t) sht).
  { intros f Hf. apply in_app_or in Hf as [Hf|Hf]; [apply M6; exact Hf|]. destruct (M7 f Hf) as (A & B & _). auto. }
  split; [|split; [|split; [|split; [|split; [|split]]]]].
  - apply nodup_app_intro; [rewrite El; eapply Permutation_NoDup; [symmetry; apply msort_perm|]; apply NoDup_filter; exact M1|rewrite Er; eapply Permutation_NoDup; [symmetry; apply msort_perm|]; apply NoDup_filter; exact M1|].
    intros m H1 H2. apply LI in H1. apply RI in H2 as [_ H2]. contradiction.
  - intros m. split; [apply Occ|]. intros (f & t & Hf & Ht & <-). apply AI. apply (Rows f Hf). exact Ht.
  - intros f Hf. destruct (Rows f Hf) as ((e & u & He & Lu & ->) & _). exists (e_pol e), u. split; [apply in_map; exact He|]. split; [exact Lu|reflexivity].
  - eapply Permutation_NoDup; [symmetry; exact M5|exact M3].
  - intros m Hm (g & Hg & Hd). apply AI in Hm. apply LeadRow. destruct (M8 m Hm) as [K|K]; [exact K|]. exfalso. apply (irreducible c F' b ps m HI (M2 m Hm) K g Hg Hd).
  - intros m. rewrite LI. apply LeadRow.
  - exists sel. split; [exact S1|]. split; [apply S2; exact Hne|]. intros q i g Hq Hi Hg. rewrite nth_error_map in Hg. destruct (nth_error els i) as [e|] eqn:Ee; [|discriminate]. injection Hg as <-. apply (M9 q i e Hq Hi Ee).
Qed.
Print Assumptions C42_closed.
(** The preprocessing ends. *)
Theorem C42_terminates : forall c F r b ps, cfg_ok c -> Forall (sorted_poly (o_nv (c_o c)) (o_lt (c_o c)) (c_p c)) F -> f4_state c F r b ps -> ps <> [] ->
  exists N, forall fuel, (N <= fuel)%nat -> round_matrix c fuel r b ps = Limit \/ exists a, round_matrix c fuel r b ps = Ok a.
Proof.
  intros c F r b ps CK HF HS Hne. destruct (f4_state_finv c CK F r b ps HF HS) as (F' & HI).
  destruct (round_matrix_ok c r b ps _ (ck_o c CK) (cfg_p c CK) (ck_m c CK) (ck_sort c CK r) (fi_u _ _ _ _ HI) (fi_els _ _ _ _ HI) Hne) as (N & K). exists N. intros fuel Hf. specialize (K fuel). destruct (round_matrix c fuel r b ps); cbn [okn] in K; eauto; [lia|contradiction].
Qed.
Print Assumptions C42_terminates.

(** * A concrete configuration: every choice of ordering, kernel, prime and number of pairs; ties broken by insertion sort;
    round-robin schedule *)
Lemma sort_by_ok o : o_ok o -> sort_ok o (sort_by (sp_le o)).
Proof.
  intros Ho l. split; [apply sort_perm|]. intros HL. pose proof (o_lt_order o) as MO.
  assert (T1 : forall a b, length a = o_nv o -> length b = o_nv o -> (mcmp o a b <=? 0) = false -> (mcmp o b a <=? 0) = true).
  { intros a b La Lb H. apply Z.leb_gt in H. apply Z.leb_le. destruct (mcmp_spec o a b Ho La Lb) as (A1 & A2 & A3). destruct (mcmp_spec o b a Ho Lb La) as (B1 & B2 & B3). assert (0 < mcmp o a b) as K by lia. apply A3 in K. apply B1 in K. lia. }
  assert (T2 : forall a b c, length a = o_nv o -> length b = o_nv o -> length c = o_nv o -> (mcmp o a b <=? 0) = true -> (mcmp o b c <=? 0) = true -> (mcmp o a c <=? 0) = true).
  { intros a b c La Lb Lc H1 H2. apply Z.leb_le in H1, H2. apply Z.leb_le. destruct (mcmp_spec o a b Ho La Lb) as (A1 & A2 & A3). destruct (mcmp_spec o b c Ho Lb Lc) as (B1 & B2 & B3). destruct (mcmp_spec o a c Ho La Lc) as (C1 & C2 & C3).
    destruct (Z.eq_dec (mcmp o a b) 0) as [E|E]; [apply A2 in E; subst b; exact H2|]. destruct (Z.eq_dec (mcmp o b c) 0) as [E'|E']; [apply B2 in E'; subst c; exact H1|].
    assert (K1 : o_lt o a b) by (apply A1; lia). assert (K2 : o_lt o b c) by (apply B1; lia). assert (K : o_lt o a c) by (apply (lt_tr _ _ MO a b c); assumption). apply C1 in K. lia. }
  apply (sort_sorted _ (fun q => length (s_lcm q) = o_nv o)); [| |exact HL].
  - intros a b La Lb. unfold sp_le. destruct (0 <? o_nev o)%nat; [|destruct (o_mo o =? 1)%nat; [|apply T1; assumption]].
    + rewrite (Z.eqb_sym (s_deg b)). destruct (Z.eqb_spec (s_deg a) (s_deg b)); [apply T1; assumption|]. intros K. apply Z.ltb_ge in K. apply Z.ltb_lt. lia.
    + rewrite (Z.eqb_sym (tdeg (s_lcm b))). destruct (Z.eqb_spec (tdeg (s_lcm a)) (tdeg (s_lcm b))); [apply T1; assumption|]. intros K. apply Z.ltb_ge in K. apply Z.ltb_lt. lia.
  - intros a b c La Lb Lc. unfold sp_le. destruct (0 <? o_nev o)%nat; [|destruct (o_mo o =? 1)%nat; [|apply T2; assumption]].
    + destruct (Z.eqb_spec (s_deg a) (s_deg b)) as [E1|E1], (Z.eqb_spec (s_deg b) (s_deg c)) as [E2|E2], (Z.eqb_spec (s_deg a) (s_deg c)) as [E3|E3]; try (apply T2; assumption); intros K1 K2; try lia; try (apply Z.ltb_lt in K1); try (apply Z.ltb_lt in K2); try (apply Z.ltb_lt; lia); lia.
    + destruct (Z.eqb_spec (tdeg (s_lcm a)) (tdeg (s_lcm b))) as [E1|E1], (Z.eqb_spec (tdeg (s_lcm b)) (tdeg (s_lcm c))) as [E2|E2], (Z.eqb_spec (tdeg (s_lcm a)) (tdeg (s_lcm c))) as [E3|E3]; try (apply T2; assumption); intros K1 K2; try lia; try (apply Z.ltb_lt in K1); try (apply Z.ltb_lt in K2); try (apply Z.ltb_lt; lia); lia.
Qed.
Definition robin (n t : nat) : list nat := concat (repeat (seq 0 t) ((n + 2) * (n + 3))).
Lemma robin_fair n t i : (i < t)%nat -> ((n + 2) * (n + 3) <= count_occ Nat.eq_dec (robin n t) i)%nat.
Proof.
  intros Hi. unfold robin. induction ((n + 2) * (n + 3))%nat as [|k IH]; [lia|]. cbn [repeat concat]. rewrite count_occ_app. assert (1 <= count_occ Nat.eq_dec (seq 0 t) i)%nat by (apply count_occ_In; apply in_seq; lia). lia.
Qed.
Definition std_config (o : ordering) (k : kern) (p : Z) (mnsel : nat) : config :=
  {| c_o := o; c_k := k; c_p := p; c_mnsel := mnsel; c_stale := fun _ => []; c_sort := fun _ => sort_by (sp_le o); c_sched := fun _ => robin |}.
Lemma std_config_ok o k p mnsel : o_ok o -> prime p -> in_class k p -> (1 <= mnsel)%nat -> cfg_ok (std_config o k p mnsel).
Proof. intros H1 H2 H3 H4. constructor; cbn; auto; [intros _; apply sort_by_ok; exact H1|intros; apply robin_fair; assumption]. Qed.

(** x^2 + y, x*y - 1 over F_101 (degree reverse lexicographic order): reduced basis x*y - 1, x^2 + y, y^2 + x; and from other generators *)
Definition f4_ex : list (list (Z * mono)) := [[(2, [2; 0]%N); (2, [0; 1]%N)]; [(3, [1; 1]%N); (98, [0; 0]%N)]].
Definition f4_ex' : list (list (Z * mono)) := [[(5, [1; 1]%N); (96, [0; 0]%N)]; [(1, [2; 0]%N); (7, [1; 1]%N); (1, [0; 1]%N); (94, [0; 0]%N)]].
Definition out_ex : list (list (Z * mono)) := [[(1, [0; 2]%N); (1, [1; 0]%N)]; [(1, [1; 1]%N); (100, [0; 0]%N)]; [(1, [2; 0]%N); (1, [0; 1]%N)]].
Lemma prime_101 : prime 101.
Proof.
  apply prime_intro; [lia|]. intros n Hn. apply Zgcd_1_rel_prime. assert (H : forallb (fun m => Z.gcd m 101 =? 1) (map Z.of_nat (seq 1 100)) = true) by (vm_compute; reflexivity).
  rewrite forallb_forall in H. apply Z.eqb_eq. apply H. apply in_map_iff. exists (Z.to_nat n). split; [lia|]. apply in_seq. lia.
Qed.
Definition cfg1 : config := std_config ord2 K31 101 1.
Definition cfg2 : config := std_config ord2 K8 101 5.
Lemma cfg1_ok : cfg_ok cfg1. Proof. apply std_config_ok; [unfold o_ok; cbn; lia|apply prime_101|unfold in_class; lia|lia]. Qed.
Lemma cfg2_ok : cfg_ok cfg2. Proof. apply std_config_ok; [unfold o_ok; cbn; lia|apply prime_101|unfold in_class; lia|lia]. Qed.

(** a check for the standard form *)
Fixpoint sortedb (o : ordering) (p : Z) (f : list (Z * mono)) : bool :=
  match f with
  | [] => true
  | t :: f' => (0 <? fst t) && (fst t <? p) && (length (snd t) =? o_nv o)%nat && forallb (fun s => 0 <? mcmp o (snd t) (snd s)) f' && sortedb o p f'
  end.
Lemma sortedb_ok o p f : o_ok o -> f <> [] -> sortedb o p f = true -> sorted_poly (o_nv o) (o_lt o) p f.
Proof.
  intros Ho Hne H. assert (K : f = [] \/ sorted_poly (o_nv o) (o_lt o) p f); [|destruct K; [contradiction|assumption]]. clear Hne. induction f as [|t f IH]; [left; reflexivity|]. right.
  cbn [sortedb] in H. apply andb_prop in H as [H H5]. apply andb_prop in H as [H H4]. apply andb_prop in H as [H H3]. apply andb_prop in H as [H1 H2]. apply Z.ltb_lt in H1, H2. apply Nat.eqb_eq in H3. specialize (IH H5).
  apply sp_cons; auto. intros s Hs. rewrite forallb_forall in H4. specialize (H4 s Hs). apply Z.ltb_lt in H4. destruct IH as [->|IH]; [destruct Hs|]. assert (Ls : length (snd s) = o_nv o) by (apply IH; exact Hs).
  destruct (mcmp_spec o (snd t) (snd s) Ho H3 Ls) as (_ & _ & A). apply A. exact H4.
Qed.
Lemma ord2_ok : o_ok ord2. Proof. unfold o_ok. cbn. lia. Qed.
Lemma f4_ex_sorted : Forall (sorted_poly 2 (o_lt ord2) 101) f4_ex /\ Forall (sorted_poly 2 (o_lt ord2) 101) f4_ex'.
Proof. split; (constructor; [|constructor; [|constructor]]); apply (sortedb_ok ord2); try apply ord2_ok; try discriminate; vm_compute; reflexivity. Qed.
Example C23_ex : cfg_ok cfg1 /\ cfg_ok cfg2 /\ core_f4 cfg1 true 20 f4_ex = Ok out_ex /\ core_f4 cfg2 true 20 f4_ex' = Ok out_ex /\ core_f4 cfg1 true 1 f4_ex = More.
Proof. split; [apply cfg1_ok|]. split; [apply cfg2_ok|]. repeat split; vm_compute; reflexivity. Qed.
(** the two systems generate the same ideal, as the theorems themselves show *)
Example C23_unique_ex : same_ideal 2 101 (pfs f4_ex) (pfs f4_ex').
Proof.
  destruct f4_ex_sorted as [S1 S2]. destruct C23_ex as (C1 & C2 & E1 & E2 & _). destruct (C23_sound cfg1 true 20%nat f4_ex out_ex C1 S1 E1) as (A & _). destruct (C23_sound cfg2 true 20%nat f4_ex' out_ex C2 S2 E2) as (B & _).
  intros f. etransitivity; [apply A|]. symmetry. apply B.
Qed.
(** C41: of the leading monomials x^2*y, x*y^2, y^3, then x*y, y, only one is left *)
Definition hist_more : list (list (Z * mono)) := [[(1, [1; 1]%N)]; [(1, [3; 0]%N)]; [(1, [0; 1]%N); (2, [0; 0]%N)]].
Example C41_ex : exists b ps, history ord2 b ps [] /\ length (b_el b) = 6%nat /\ final_lmps b = [4; 5]%nat.
Proof.
  destruct (update_basis ord2 basis0 [] (map (mk_elt 0) hist_ex)) as [[b1 ps1]| | |] eqn:E1; try (vm_compute in E1; discriminate).
  destruct (update_basis ord2 b1 ps1 (map (mk_elt 0) hist_more)) as [[b2 ps2]| | |] eqn:E2; try (vm_compute in E1; injection E1 as <- <-; vm_compute in E2; discriminate).
  assert (G : forall f, f <> [] -> sortedb ord2 101 f = true -> (exists m r, f = (1, m) :: r) -> good (o_nv ord2) (o_lt ord2) f) by (intros f H1 H2 (m & r & ->); apply (mpoly_good _ _ 101); split; [apply sortedb_ok; auto; apply ord2_ok|eexists _, _; reflexivity]).
  exists b2, ps2. split.
  - apply (h_update ord2 b1 ps1 [] hist_more b2 ps2); [apply (h_update ord2 basis0 [] [] hist_ex b1 ps1); [apply h_start| |exact E1]| |exact E2]; (constructor; [|constructor; [|constructor; [|constructor]]]); (apply G; [discriminate|vm_compute; reflexivity|eexists _, _; reflexivity]).
  - vm_compute in E1. injection E1 as <- <-. vm_compute in E2. injection E2 as <- <-. split; reflexivity.
Qed.
(** C42: the first matrix for x^2 + x*y + y, x*y - 1, with a reducer row that does not come from a pair *)
Definition f4_ex2 : list (list (Z * mono)) := [[(1, [2; 0]%N); (1, [1; 1]%N); (1, [0; 1]%N)]; [(1, [1; 1]%N); (100, [0; 0]%N)]].
Example C42_ex : exists b ps a, f4_state cfg1 f4_ex2 0 b ps /\ ps <> [] /\ round_matrix cfg1 20 0 b ps = Ok a /\ let '(_, (l, r), (rr, tr)) := a in
  l = [[2; 1]%N; [1; 2]%N] /\ r = [[0; 2]%N; [1; 0]%N; [0; 1]%N] /\ length rr = 2%nat /\ length tr = 1%nat.
Proof.
  destruct (rmap (normalize_poly (c_k cfg1) (c_p cfg1)) f4_ex2) as [F'| | |] eqn:E0; try (vm_compute in E0; discriminate).
  destruct (update_basis (c_o cfg1) basis0 [] (map (mk_elt (o_nev (c_o cfg1))) F')) as [[b ps]| | |] eqn:E1; try (vm_compute in E0; injection E0 as <-; vm_compute in E1; discriminate).
  destruct (round_matrix cfg1 20 0 b ps) as [a| | |] eqn:E2; try (vm_compute in E0; injection E0 as <-; vm_compute in E1; injection E1 as <- <-; vm_compute in E2; discriminate).
  exists b, ps, a. split; [apply (f4_start cfg1 f4_ex2 F' b ps E0 E1)|]. vm_compute in E0. injection E0 as <-. vm_compute in E1. injection E1 as <- <-. vm_compute in E2. injection E2 as <-. split; [discriminate|]. split; [vm_compute; reflexivity|]. repeat split; reflexivity.
Qed.
