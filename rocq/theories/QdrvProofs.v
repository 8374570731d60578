(** The whole computation over the rationals: proofs. *)
From Coq Require Import ZArith NArith Arith String List Bool Lia Permutation Sorting.Sorted Ring_theory Ring InitialRing.
From Verif Require Import MonoSpec MonoModel MonoProofs MonoCmpProofs GbSpec F4Model RoundProofs LinSpec PointSpec PointProofs QgbSpec RurSpec ModInvModel InputSpec InputModel InputProofs InputRunProofs ImportModel ImportProofs ImportProps DrvModel DrvProofs QdrvModel.
Import ListNotations.
Open Scope Z_scope.
Notation length := List.length.

(** ** Systems that are imported as they are *)
(** Numerators and denominators are not 0; exponents fit in 16 bits; every monomial occurs once in a polynomial. *)
Definition qterm_ok (n : nat) (t : iterm) : Prop := (fst (fst t) <> 0 /\ snd (fst t) <> 0) /\ length (snd t) = n /\ Forall (fun x => 0 <= x < 2 ^ 16) (snd t).
Definition qpoly_ok (n : nat) (f : ipoly) : Prop := f <> [] /\ Forall (qterm_ok n) f /\ NoDup (map snd f).
Definition qsys_ok (n : nat) (s : isys) : Prop := s <> [] /\ Forall (qpoly_ok n) s.
Lemma qsys_ok_wf n s : qsys_ok n s -> sys_wf n s.
Proof. intros [_ H] f Hf t Ht. rewrite Forall_forall in H. destruct (H f Hf) as (_ & H1 & _). rewrite Forall_forall in H1. apply (H1 t Ht). Qed.
Lemma qswp_ok n a b s : (a < n)%nat -> (b < n)%nat -> qsys_ok n s -> qsys_ok n (sw_sys a b s).
Proof.
  intros Ha Hb [NE H]. split; [destruct s; [contradiction|discriminate]|]. unfold sw_sys. apply Forall_forall. intros f Hf. apply in_map_iff in Hf as (q & <- & Hq). rewrite Forall_forall in H. destruct (H q Hq) as (N1 & T & ND).
  rewrite Forall_forall in T. assert (LT : forall e, In e (map snd q) -> length e = n) by (intros e He; apply in_map_iff in He as (t & <- & Ht); apply (T t Ht)).
  split; [destruct q; [contradiction|discriminate]|]. split.
  - apply Forall_forall. intros t Ht. apply in_map_iff in Ht as (u & <- & Hu). destruct (T u Hu) as (C & L & E). unfold qterm_ok. cbn [fst snd]. split; [exact C|]. split; [rewrite sw_len by lia; exact L|].
    destruct (sw_ok a b (snd u) ltac:(lia) ltac:(lia)) as [_ TR]. apply transposed_perm in TR; [|lia|lia]. apply (Permutation_Forall TR). exact E.
  - rewrite map_snd_map. apply map_nodup; [|exact ND]. intros x y Hx Hy E. rewrite <- (sw_inv a b x), <- (sw_inv a b y) by (rewrite LT by assumption; lia). now rewrite E.
Qed.
Lemma qext_ok n s : qsys_ok n s -> qsys_ok (S n) (ext_sys s).
Proof.
  intros [NE H]. split; [destruct s; [contradiction|discriminate]|]. unfold ext_sys. apply Forall_forall. intros f Hf. apply in_map_iff in Hf as (q & <- & Hq). rewrite Forall_forall in H. destruct (H q Hq) as (N1 & T & ND).
  rewrite Forall_forall in T. split; [destruct q; [contradiction|discriminate]|]. split.
  - apply Forall_forall. intros t Ht. apply in_map_iff in Ht as (u & <- & Hu). destruct (T u Hu) as (C & L & E). unfold qterm_ok, ext_term. cbn [fst snd]. split; [exact C|]. split; [rewrite app_length; cbn; lia|].
    apply Forall_app. split; [exact E|]. constructor; [lia|constructor].
  - unfold ext_term. rewrite (map_snd_map (fun e => e ++ [0])). apply map_nodup; [|exact ND]. intros x y _ _ E. apply app_inj_tail in E. apply E.
Qed.
Definition qform_ok (cs : list coef) : Prop := cs <> [] /\ Forall (fun c => fst c <> 0 /\ snd c <> 0) cs.
Lemma qlinear_ok cs : qform_ok cs -> qpoly_ok (length cs) (linear_form cs).
Proof.
  intros [NE H]. unfold linear_form. set (n := length cs). assert (L : length cs = length (map (unit_exp n) (seq 0 n))) by (rewrite map_length, seq_length; reflexivity). split.
  - destruct cs; [contradiction|]. discriminate.
  - split.
    + apply Forall_forall. intros [c e] Ht. pose proof (in_combine_l _ _ _ _ Ht) as Hc. pose proof (in_combine_r _ _ _ _ Ht) as He. rewrite Forall_forall in H. split; [exact (H c Hc)|]. apply in_map_iff in He as (i & <- & _).
      cbn [snd]. split; [apply unit_exp_len|]. apply Forall_forall. intros x Hx. unfold unit_exp in Hx. apply in_map_iff in Hx as (j & <- & _). destruct (_ =? _)%nat; lia.
    + replace (map snd (combine cs (map (unit_exp n) (seq 0 n)))) with (map (unit_exp n) (seq 0 n)) by (symmetry; apply map_snd_combine; exact L).
      apply map_nodup; [|apply seq_NoDup]. intros i j Hi Hj. apply unit_exp_inj. apply in_seq in Hi. lia.
Qed.
Lemma qform_sys n s cs : qsys_ok n s -> length cs = S n -> qform_ok cs -> qsys_ok (S n) (ext_sys s ++ [linear_form cs]).
Proof.
  intros H L F. destruct (qext_ok n s H) as [NE E]. split; [destruct (ext_sys s); [contradiction|discriminate]|]. apply Forall_app. split; [exact E|]. constructor; [|constructor]. rewrite <- L. apply qlinear_ok. exact F.
Qed.

(** ** Import *)
Definition to_qgen (f : ipoly) : list ((Z * Z) * mono) := map (fun t => (fst t, to_mono (snd t))) f.
(** what is handed on for a polynomial: proportional coefficients, decreasing monomials *)
Definition qimage (o : ordering) (f : ipoly) (h : poly) : Prop :=
  zsorted (o_nv o) (o_lt o) h /\ exists c k us, c <> 0 /\ k <> 0 /\ Permutation h (combine us (map to_mono (map snd f))) /\ Forall2 (fun (u : Z) (t : iterm) => c * u * snd (fst t) = k * fst (fst t)) us f.
Lemma combine_map_l {A B C} (f : A -> C) : forall (l : list A) (m : list B), combine (map f l) m = map (fun t => (f (fst t), snd t)) (combine l m).
Proof. induction l as [|a l IH]; intros [|b m]; cbn; [reflexivity|reflexivity|reflexivity|]. now rewrite IH. Qed.
Lemma f2_len {A B} (R : A -> B -> Prop) l m : Forall2 R l m -> length l = length m.
Proof. induction 1; cbn; congruence. Qed.
Lemma f2_map_r {A B C} (R : A -> C -> Prop) (g : B -> C) : forall l m, Forall2 R l (map g m) -> Forall2 (fun a b => R a (g b)) l m.
Proof. induction l as [|a l IH]; intros [|b m] H; inversion H; subst; constructor; auto. Qed.
Lemma in_combine_both {A B} : forall (l : list A) (m : list B) a, length l = length m -> In a l -> exists b, In (a, b) (combine l m).
Proof. induction l as [|x l IH]; intros [|y m] a L []; try discriminate. - subst. exists y. now left. - destruct (IH m a ltac:(cbn in L; lia) H) as (b & Hb). exists b. now right. Qed.
Lemma zero_nd c x : c <> 0 -> c * x / c = x.
Proof. intros H. rewrite Z.mul_comm. apply Z.div_mul. exact H. Qed.

Lemma qimage_ok o f row r' : o_ok o -> (o_nev o <> 0 \/ o_mo o <> 1)%nat -> qpoly_ok (o_nv o) f -> imported_qq (gens_le o) (to_qgen f) row -> (exists k, k <> 0 /\ fst row = map (Z.mul k) r') -> qimage o f (combine r' (snd row)).
Proof.
  intros OK OM (NE & T & ND) (L1 & L2 & (k & qs & K0 & PE & FE) & SS) (c & C0 & ER). rewrite Forall_forall in T. set (g := to_qgen f) in *.
  assert (LF : length g = length f) by apply map_length. assert (LQ : length qs = length g) by exact (f2_len _ _ _ FE). assert (MS : map snd g = map to_mono (map snd f)) by (unfold g, to_qgen; rewrite !map_map; reflexivity).
  assert (LR : length r' = length (snd row)) by (rewrite L2, <- L1, ER, map_length; reflexivity).
  assert (DV : forall q, In q qs -> exists u, q = c * u). { intros q Hq. destruct (in_combine_both qs (map snd g) q ltac:(rewrite map_length; exact LQ) Hq) as (m & Hm). apply (Permutation_in _ (Permutation_sym PE)) in Hm. apply in_combine_l in Hm. rewrite ER in Hm. apply in_map_iff in Hm as (u & E & _). exists u. now symmetry. }
  set (us := map (fun q => q / c) qs). assert (QU : qs = map (Z.mul c) us). { unfold us. rewrite map_map. rewrite <- (map_id qs) at 1. apply map_ext_in. intros q Hq. destruct (DV q Hq) as (u & ->). now rewrite zero_nd. }
  assert (PU : Permutation (combine r' (snd row)) (combine us (map snd g))).
  { unfold us. rewrite combine_map_l. apply (Permutation_map (fun t : Z * mono => (fst t / c, snd t))) in PE. rewrite <- PE, ER, combine_map_l, map_map. cbn [fst snd]. erewrite map_ext; [rewrite map_id; reflexivity|]. intros [a b]. cbn [fst snd]. now rewrite zero_nd. }
  assert (FU : Forall2 (fun (u : Z) (t : iterm) => c * u * snd (fst t) = k * fst (fst t)) us f).
  { rewrite QU in FE. unfold g, to_qgen in FE. apply f2_map_r in FE. clear - FE. revert f FE. induction us as [|u us IH]; intros f FE; inversion FE; subst; constructor; [assumption|]. apply IH. assumption. }
  split; [|exists c, k, us; rewrite <- MS; auto].
  assert (LU : length us = length f) by exact (f2_len _ _ _ FU).
  assert (U0 : forall u, In u us -> u <> 0). { intros u Hu E. apply In_nth_error in Hu as (i & Hi). assert (exists t, nth_error f i = Some t) as (t & Ht). { destruct (nth_error f i) eqn:Q; [eauto|]. apply nth_error_None in Q. apply nth_error_Some_lt in Hi || idtac. assert (i < length us)%nat by (apply nth_error_Some; congruence). lia. }
    assert (X : c * u * snd (fst t) = k * fst (fst t)). { clear - FU Hi Ht. revert i Hi Ht. induction FU as [|a b l m R F IH]; intros [|i] Hi Ht; cbn in *; try discriminate; [congruence|eauto]. }
    destruct (T t (nth_error_In _ _ Ht)) as ((A & _) & _). subst u. rewrite Z.mul_0_r in X. symmetry in X. apply Z.mul_eq_0 in X. lia. }
  assert (HL : forall m, In m (map snd g) -> length m = o_nv o). { intros m Hm. rewrite MS in Hm. apply in_map_iff in Hm as (e & <- & He). apply in_map_iff in He as (t & <- & Ht). unfold to_mono. rewrite map_length. apply (T t Ht). }
  assert (NDG : NoDup (map snd g)). { rewrite MS. apply map_nodup; [|exact ND]. intros x y Hx Hy E. apply in_map_iff in Hx as (t & <- & Ht). apply in_map_iff in Hy as (u & <- & Hu). apply to_mono_inj; [apply (T t Ht)|apply (T u Hu)|exact E]. }
  assert (LS : length us = length (map snd g)) by (rewrite map_length; congruence).
  set (G := combine us (map snd g)). assert (SG : map snd G = map snd g) by (apply map_snd_combine; exact LS).
  assert (DEC : StronglySorted (fun a b => o_lt o b a) (snd row)).
  { apply (C51_decreasing o 0 G (r', snd row) OK OM); [intros t Ht; apply HL; rewrite <- SG; apply in_map; exact Ht|rewrite SG; exact NDG|]. assert (LG : length G = length g) by (unfold G; rewrite combine_length, map_length; lia). split; [cbn [fst]; lia|]. split; [cbn [snd]; lia|]. split; [|exact SS]. cbn [fst snd].
    erewrite map_ext; [rewrite map_id; exact PU|]. intros [a b]. cbn [fst snd]. now rewrite Zmod_0_r. }
  split; [|split].
  - intros E. apply (f_equal (@length _)) in E. rewrite combine_length in E. destruct f; [contradiction|]. cbn in *. lia.
  - intros t Ht. apply (Permutation_in _ PU) in Ht. destruct t as [u m]. cbn [fst snd]. split; [apply U0; exact (in_combine_l _ _ _ _ Ht)|apply HL; exact (in_combine_r _ _ _ _ Ht)].
  - intros i j s t Hi Hj Hij. assert (Hi' : nth_error (snd row) i = Some (snd s)) by (rewrite <- (map_snd_combine r' (snd row) LR); now apply map_nth_error). assert (Hj' : nth_error (snd row) j = Some (snd t)) by (rewrite <- (map_snd_combine r' (snd row) LR); now apply map_nth_error).
    clear - DEC Hi' Hj' Hij. revert i j Hi' Hj' Hij. induction DEC as [|a l SS IH HF]; intros i j Hi Hj Hij; [destruct i; discriminate|]. destruct j as [|j]; [lia|]. cbn in Hj. destruct i as [|i].
    + cbn in Hi. injection Hi as ->. rewrite Forall_forall in HF. apply HF. eapply nth_error_In; eassumption.
    + cbn in Hi. apply (IH i j Hi Hj). lia.
Qed.

(** ** The polynomials of one attempt *)
Record qdrv_ok (ord : nat -> ordering) (sorter : nat -> list mono -> list nat) : Prop := {
  qo_ord : forall n, (1 <= n)%nat -> o_ok (ord n) /\ o_nv (ord n) = n /\ o_nev (ord n) = 0%nat /\ o_mo (ord n) <> 1%nat;
  qo_sort : forall n l, (1 <= n)%nat -> Forall (fun m => length m = n) l -> sorts (gens_le (ord n)) (sorter n) l }.
Lemma q_input_ok ord sorter g nm sg : qdrv_ok ord sorter -> rep g nm sg -> (1 <= nvars g)%nat -> qsys_ok (nvars g) sg ->
  exists F, q_input sorter g = Some (1, F) /\ Forall2 (qimage (ord (nvars g))) sg F.
Proof.
  intros D (R1 & R2 & R3 & R4 & R5 & R6) NV [NE SO]. set (n := nvars g) in *. set (o := ord n). set (bs := flat_map (map (@snd coef (list Z))) sg).
  assert (Hb : forall b, In b bs -> length b = n). { intros b Hb. apply in_flat_map in Hb as (q & Hq & Hb). apply in_map_iff in Hb as (t & <- & Ht). exact (R3 q Hq t Ht). }
  assert (EC : chunks (sum_lens (lens g)) n (exps g) = Some bs).
  { rewrite R4, sum_lens_ok. fold bs. rewrite R5, flat_concat. fold bs. rewrite <- (app_nil_r (concat bs)). apply chunks_ok. exact Hb. }
  unfold q_input. fold n. rewrite EC. cbn [obind]. set (G := map to_qgen sg). pose proof SO as SO'. rewrite Forall_forall in SO.
  assert (E1 : lens g = lens_of G) by (rewrite R4; unfold lens_of, G; rewrite map_map; apply map_ext; intros f; unfold to_qgen; now rewrite map_length).
  assert (E2 : map to_mono bs = mons_of G). { unfold mons_of, G, bs. rewrite flat_map_concat_map, concat_map, !map_map. f_equal. apply map_ext. intros f. unfold to_qgen. rewrite !map_map. reflexivity. }
  assert (E3 : cfs g = cfs_of G). { unfold cfs_of, G. rewrite R6, flat_map_concat_map, map_map. f_equal. apply map_ext. intros f. unfold to_qgen. rewrite map_map. reflexivity. }
  rewrite E1, E2, E3. destruct (C37_rational mono (gens_le o) (sorter n) G (Z.of_nat n)) as (rows & EI & IM).
  - lia.
  - unfold G. destruct sg; [contradiction|discriminate].
  - intros f Hf. unfold G in Hf. apply in_map_iff in Hf as (q & <- & Hq). destruct (SO q Hq) as (_ & T & _). rewrite Forall_forall in T.
    apply (qo_sort _ _ D n); [exact NV|]. apply Forall_forall. intros m Hm. unfold to_qgen in Hm. rewrite map_map in Hm. apply in_map_iff in Hm as (u & <- & Hu). cbn [snd]. unfold to_mono. rewrite map_length. apply (T u Hu).
  - intros f t Hf Ht. unfold G in Hf. apply in_map_iff in Hf as (q & <- & Hq). apply in_map_iff in Ht as (u & <- & Hu). cbn [fst]. destruct (SO q Hq) as (_ & T & _). rewrite Forall_forall in T. apply (T u Hu).
  - rewrite EI. cbn [obind fst snd]. unfold G in IM. assert (IM' : Forall2 (fun f row => qpoly_ok n f /\ imported_qq (gens_le o) (to_qgen f) row) sg rows).
    { clear - IM SO'. revert rows IM. induction SO' as [|f sg S1 S2 IH]; intros rows IM; inversion IM; subst; constructor; [auto|]. apply IH. assumption. }
    clear IM. destruct (qo_ord _ _ D n NV) as (OK & EN & E0 & EM). fold o in OK, EN, E0, EM.
    destruct (C45_content (map fst rows)) as (res & EC1 & FC).
    { intros r Hr. apply in_map_iff in Hr as (row & <- & Hrow). assert (exists f, qpoly_ok n f /\ imported_qq (gens_le o) (to_qgen f) row) as (f & PO & IQ).
      { clear - IM' Hrow. induction IM' as [|f r sg rows H F IH]; [destruct Hrow|]. destruct Hrow as [->|Hrow]; [eauto|auto]. }
      assert (QI : qimage o f (combine (fst row) (snd row))). { apply qimage_ok; [exact OK|now right|rewrite EN; exact PO|exact IQ|]. exists 1. split; [lia|]. rewrite <- (map_id (fst row)) at 1. apply map_ext. intros x. lia. }
      destruct QI as ((N1 & N2 & _) & _). destruct row as [[|a l] [|b m]]; cbn [fst snd combine] in *; try contradiction. exists a, l. split; [reflexivity|]. destruct (N2 (a, b) (or_introl eq_refl)) as [H _]. exact H. }
    rewrite EC1. cbn [obind]. eexists. split; [reflexivity|]. clear - FC IM' OK EN EM. revert res FC. induction IM' as [|f row sg rows [PO IQ] F IH]; intros res FC; inversion FC as [|? ? ? ? (HK & _) FC1]; subst; cbn [map combine]; constructor.
    + cbn [fst snd]. apply qimage_ok; [exact OK|now right|rewrite EN; exact PO|exact IQ|exact HK].
    + apply IH. exact FC1.
Qed.

(** ** Values *)
Section Values.
Variables (K : Type) (k0 k1 : K) (add mul sub : K -> K -> K) (opp : K -> K) (phi : coef -> K).
Hypothesis CZ : char_zero K k0 k1 add mul sub opp.
Hypothesis FR : forall n d, d <> 0 -> mul (kz K k0 k1 add mul opp d) (phi (n, d)) = kz K k0 k1 add mul opp n.
Let RK : ring_theory k0 k1 add mul sub opp eq := proj1 CZ.
Add Ring Kr : RK.
Notation kz := (kz K k0 k1 add mul opp).
Lemma mul_cancel n x y : n <> 0 -> mul (kz n) x = mul (kz n) y -> x = y.
Proof. intros N E. assert (H : mul (kz n) (sub x y) = k0) by (replace (mul (kz n) (sub x y)) with (sub (mul (kz n) x) (mul (kz n) y)) by ring; rewrite E; ring). apply (proj2 CZ) in H; [|exact N]. replace x with (add y (sub x y)) by ring. rewrite H. ring. Qed.
Lemma qval c k n a : forall f us, Forall (qterm_ok n) f -> Forall2 (fun (u : Z) (t : iterm) => c * u * snd (fst t) = k * fst (fst t)) us f ->
  mul (kz c) (pval K k0 k1 add mul opp a (combine us (map to_mono (map snd f)))) = mul (kz k) (poly_val k0 k1 add mul phi f (map a (seq 0 n))).
Proof.
  pose proof (kz_mul K k0 k1 add mul sub opp RK) as KM.
  induction f as [|t f IH]; intros us T F; inversion F as [|u ? us' ? E F']; subst; cbn [map combine pval poly_val fst snd]; [ring|]. inversion T as [|? ? ((_ & D0) & L & EX) T']; subst. specialize (IH us' T' F').
  set (m := mval K k1 mul a (to_mono (snd t))) in *. assert (EM : mono_val k1 mul (map a (seq 0 (length (snd t)))) (snd t) = m) by (apply mono_same; exact EX). rewrite EM.
  assert (H : mul (kz c) (kz u) = mul (kz k) (phi (fst t))). { apply (mul_cancel (snd (fst t))); [exact D0|]. rewrite <- !KM. replace (snd (fst t) * (c * u)) with (k * fst (fst t)) by lia. rewrite KM. destruct t as [[x d] e]. cbn [fst snd] in *. rewrite <- (FR x d D0). ring. }
  match goal with |- mul (kz c) (add (mul (kz u) ?y) ?z) = _ => transitivity (add (mul (mul (kz c) (kz u)) y) (mul (kz c) z)); [ring|] end. rewrite H, IH. ring.
Qed.
Lemma qimage_val o n f h a : qpoly_ok n f -> qimage o f h -> pval K k0 k1 add mul opp a h = k0 <-> poly_val k0 k1 add mul phi f (map a (seq 0 n)) = k0.
Proof.
  intros (_ & T & _) (_ & c & k & us & C0 & N0 & PE & F). rewrite (pval_perm K k0 k1 add mul sub opp 0 (conj RK (kz_0 K k0 k1 add mul sub opp RK)) a _ _ PE). pose proof (qval c k n a f us T F) as V. split; intros E; rewrite E in V.
  - apply (proj2 CZ k); [exact N0|]. rewrite <- V. ring.
  - apply (proj2 CZ c); [exact C0|]. rewrite V. ring.
Qed.
Lemma q_zero_ok o n sg F a : Forall (qpoly_ok n) sg -> Forall2 (qimage o) sg F -> zero_of K k0 k1 add mul opp F a <-> solves k0 k1 add mul phi sg (map a (seq 0 n)).
Proof.
  intros SO H. unfold zero_of, solves. induction H as [|f h sg F I H IH]; [split; intros _ x []|]. inversion SO as [|? ? S1 S2]; subst. pose proof (qimage_val o n f h a S1 I) as V. specialize (IH S2). split.
  - intros Z0 q [<-|Hq]; [apply V; apply Z0; now left|]. apply (proj1 IH); [intros x Hx; apply Z0; now right|exact Hq].
  - intros Z0 q [<-|Hq]; [apply V; apply Z0; now left|]. apply (proj2 IH); [intros x Hx; apply Z0; now right|exact Hq].
Qed.
End Values.

(** ** The attempts *)
Definition qgood (names : list string) (s : isys) (n : nat) (g : gens) : Prop :=
  state_ok n names s 0 g /\ (0 < linear_form_base_coef g -> exists cs, with_form g names s cs /\ qform_ok cs).
Lemma power_qform e n : 0 <= e -> qform_ok (power_coefs 0 e n).
Proof.
  intros E. split; [intros C; apply app_eq_nil in C as [_ C]; discriminate|]. unfold power_coefs. cbn [Z.ltb Z.compare]. apply Forall_app. split.
  - apply Forall_forall. intros c Hc. apply in_map_iff in Hc as (j & <- & Hj). cbn [fst snd]. split; [|lia]. pose proof (Z.pow_pos_nonneg (1 + Z.of_nat j) e ltac:(lia) E). lia.
  - constructor; [|constructor]. cbn [fst snd]. lia.
Qed.
Lemma handle_qgood names s n gh o g rnd g' rest : (0 < n)%nat -> length names = n -> sys_wf n s -> qgood names s n g -> handle gh o g rnd = Some (true, g', rest) -> qgood names s n g'.
Proof.
  intros Hn Hl Hw [S1 _] H. destruct (handle_ok n names s 0 gh o g rnd true g' rest Hn Hl Hw S1 H eq_refl) as (S2 & HS & HT). split; [exact S2|]. intros LB. destruct o.
  - destruct (HT eq_refl) as (_ & W). eexists. split; [exact (W LB)|]. apply power_qform. lia.
  - destruct (HS eq_refl) as (_ & W & U). eexists. split; [exact W|]. split.
    + destruct W as [_ L]. destruct S2 as [_ [(Q & _)|(_ & Q & _)]]; [lia|]. intros C. rewrite C in L. cbn in L. lia.
    + unfold random_coefs. apply Forall_forall. intros c Hc. apply in_map_iff in Hc as (v & <- & Hv). rewrite Forall_forall in U. cbn [fst snd]. split; [apply (U v Hv)|lia].
Qed.
Lemma attempts_qgood names s n gh os : forall g rnd g', (0 < n)%nat -> length names = n -> sys_wf n s -> qgood names s n g -> attempts gh os g rnd = Some (true, g') -> qgood names s n g'.
Proof.
  induction os as [|o os IH]; intros g rnd g' Hn Hl Hw HS H; cbn [attempts] in H; [injection H as <-; assumption|].
  destruct (handle gh o g rnd) as [[[b g1] r1]|] eqn:E; [|discriminate]. cbn [obind fst snd] in H. destruct b; [|discriminate].
  exact (IH _ _ _ Hn Hl Hw (handle_qgood names s n gh o g rnd g1 r1 Hn Hl Hw HS E) H).
Qed.
Lemma qgood_sys names s n g : (0 < n)%nat -> qsys_ok n s -> qgood names s n g -> exists nm sg, rep g nm sg /\ (1 <= nvars g)%nat /\ qsys_ok (nvars g) sg.
Proof.
  intros Hn SO [[FC [(L0 & N & _ & C1 & C2 & R)|(L1 & N & _)]] W].
  - eexists _, _. split; [exact R|]. split; [lia|]. rewrite N. unfold cur_sys. destruct (Z.eqb_spec (change_var_order g) (-1)) as [E|E]; [exact SO|]. apply qswp_ok; [lia|lia|exact SO].
  - destruct (W L1) as (cs & [R L] & F). eexists _, _. split; [exact R|]. split; [lia|]. rewrite N. apply qform_sys; [exact SO|congruence|exact F].
Qed.
(** After any number of restarts: what the attempt works with exists, is in standard form, and has the zeroes of the system held by the record. *)
Lemma attempt_input ord sorter gh os g0 names s rnd g : qdrv_ok ord sorter -> (0 < nvars g0)%nat -> fresh g0 -> field_char g0 = 0 -> rep g0 names s -> qsys_ok (nvars g0) s -> attempts gh os g0 rnd = Some (true, g) ->
  exists nm sg F, rep g nm sg /\ (1 <= nvars g)%nat /\ q_input sorter g = Some (1, F) /\ Forall (zsorted (nvars g) (o_lt (ord (nvars g)))) F /\
    forall K k0 k1 add mul sub opp phi, char_zero K k0 k1 add mul sub opp -> (forall x d, d <> 0 -> mul (kz K k0 k1 add mul opp d) (phi (x, d)) = kz K k0 k1 add mul opp x) ->
      forall a, zero_of K k0 k1 add mul opp F a <-> solves k0 k1 add mul phi sg (map a (seq 0 (nvars g))).
Proof.
  intros D Hn Hf FC R SO H. pose proof R as (R1 & R2 & R3 & _).
  assert (G0 : qgood names s (nvars g0) g0). { split; [rewrite <- FC; apply fresh_ok; assumption|]. destruct Hf as (_ & L & _). intros Q. lia. }
  pose proof (attempts_qgood names s (nvars g0) gh os g0 rnd g Hn R2 R3 G0 H) as GD. destruct (qgood_sys names s (nvars g0) g Hn SO GD) as (nm & sg & RG & NV & SG).
  destruct (q_input_ok ord sorter g nm sg D RG NV SG) as (F & EF & IM). exists nm, sg, F. split; [exact RG|]. split; [exact NV|]. split; [exact EF|]. destruct (qo_ord _ _ D (nvars g) NV) as (_ & EN & _). split.
  - clear - IM EN. induction IM as [|f h sg F (ZS & _) IM IH]; constructor; [rewrite EN in ZS; exact ZS|exact IH].
  - intros K k0 k1 add mul sub opp phi CZ FR a. apply (q_zero_ok K k0 k1 add mul sub opp phi CZ FR (ord (nvars g))); [apply SG|exact IM].
Qed.
