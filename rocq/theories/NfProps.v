(** C61: normal forms with respect to a basis modulo p. *)
From Coq Require Import ZArith NArith Arith List Bool Lia Sorted Znumtheory.
From Verif Require Import LinSpec MonoSpec MonoSpecProofs MonoModel MonoCmpProofs GbSpec GbProofs GbIdeal F4Model UpdProps F4Rows RoundProofs FinalProofs F4Props HilbSpec FglmSpec FglmModel MatVecProofs BuildModel StairProofs BuildProofs BasisProofs BuildProps NfSpec NfModel NfProofs.
Import ListNotations.
Open Scope Z_scope.

(** the basis given to the reduction: monic polynomials in stored form *)
Definition monic_list (nv : nat) (lt : mono -> mono -> Prop) (p : Z) (G : list (list (Z * mono))) : Prop :=
  forall g, In g G -> sorted_poly nv lt p g /\ exists m g', g = (1, m) :: g'.

Lemma els_of c G : cfg_ok c -> monic_list (o_nv (c_o c)) (o_lt (c_o c)) (c_p c) G -> els_ok (o_nv (c_o c)) (o_lt (c_o c)) (c_p c) (map (mk_elt (o_nev (c_o c))) G) /\ map e_pol (map (mk_elt (o_nev (c_o c))) G) = G.
Proof.
  intros CK HG. split.
  - intros e He. apply in_map_iff in He as (g & <- & Hg). cbn [mk_elt e_pol]. exact (HG g Hg).
  - rewrite map_map. cbn [mk_elt e_pol]. apply map_id.
Qed.
Lemma basis_nf_ok c G tbr : cfg_ok c -> monic_list (o_nv (c_o c)) (o_lt (c_o c)) (c_p c) G -> Forall (sorted_poly (o_nv (c_o c)) (o_lt (c_o c)) (c_p c)) tbr ->
  exists N, forall fuel, okn fuel N (basis_nf c fuel G tbr) (Forall2 (normal_form_of (o_nv (c_o c)) (o_lt (c_o c)) (c_p c) (pfs G)) tbr).
Proof.
  intros CK HG HT. destruct (els_of c G CK HG) as [HE EG]. destruct (core_nf_ok c CK _ (seq 0 (length G)) tbr HE) as (N & H); [intros i Hi; apply in_seq in Hi; rewrite map_length; lia|exact HT|].
  exists N. intros fuel. eapply okn_imp; [exact (H fuel)|lia|]. rewrite EG. intros hs F. eapply F2_imp; [|exact F]. intros f h _ (A & B & C). split; [exact A|]. split; [|exact C].
  intros t g l Ht (g0 & Hg0 & ->) Hl. destruct (In_nth_error _ _ Hg0) as (i & Ei). assert (Li : (i < length G)%nat) by (apply nth_error_Some; congruence).
  assert (M : mpoly (o_nv (c_o c)) (o_lt (c_o c)) (c_p c) g0) by exact (HG g0 Hg0). pose proof (mpoly_lead _ _ _ (o_lt_order (c_o c)) (cfg_p c CK) g0 M) as Hl'. rewrite (lead_unique _ _ _ (o_lt_order (c_o c)) _ _ _ Hl Hl').
  apply (B t i (mk_elt (o_nev (c_o c)) g0) Ht); [apply in_seq; lia|]. rewrite nth_error_map, Ei. reflexivity.
Qed.

(** What is returned, whatever the basis: a list of the same length, each entry a normal form of the corresponding polynomial. *)
Theorem C61_sound : forall c fuel G tbr hs, cfg_ok c -> monic_list (o_nv (c_o c)) (o_lt (c_o c)) (c_p c) G -> Forall (sorted_poly (o_nv (c_o c)) (o_lt (c_o c)) (c_p c)) tbr ->
  basis_nf c fuel G tbr = Ok hs -> Forall2 (normal_form_of (o_nv (c_o c)) (o_lt (c_o c)) (c_p c) (pfs G)) tbr hs.
Proof. intros c fuel G tbr hs CK HG HT E. destruct (basis_nf_ok c G tbr CK HG HT) as (N & H). specialize (H fuel). rewrite E in H. exact H. Qed.
Print Assumptions C61_sound.

(** The computation ends without undefined behaviour, for any basis. Limit: as for the basis computation (C23). *)
Theorem C61_terminates : forall c G tbr, cfg_ok c -> monic_list (o_nv (c_o c)) (o_lt (c_o c)) (c_p c) G -> Forall (sorted_poly (o_nv (c_o c)) (o_lt (c_o c)) (c_p c)) tbr ->
  exists N, forall fuel, (N <= fuel)%nat -> basis_nf c fuel G tbr = Limit \/ exists hs, basis_nf c fuel G tbr = Ok hs.
Proof.
  intros c G tbr CK HG HT. destruct (basis_nf_ok c G tbr CK HG HT) as (N & H). exists N. intros fuel Hf. specialize (H fuel). destruct (basis_nf c fuel G tbr); cbn [okn] in H; eauto; [lia|contradiction].
Qed.
Print Assumptions C61_terminates.

Lemma nf_terms nv lt p h (t : Z * mono) : h = [] \/ sorted_poly nv lt p h -> In t h -> length (snd t) = nv.
Proof. intros [->|(_ & K & _)] Ht; [destruct Ht|]. apply (K t Ht). Qed.
Lemma nf_unique nv lt p : mono_order nv lt -> 1 < p -> forall G1 G2 f1 f2 h1 h2, same_ideal nv p (pfs G1) (pfs G2) -> groebner nv lt p (pfs G1) -> groebner nv lt p (pfs G2) ->
  ideal nv p (pfs G1) (fun u => cf f1 u - cf f2 u) -> normal_form_of nv lt p (pfs G1) f1 h1 -> normal_form_of nv lt p (pfs G2) f2 h2 -> h1 = h2.
Proof.
  intros MO Hp G1 G2 f1 f2 h1 h2 SI R1 R2 HI (A1 & A2 & A3) (B1 & B2 & B3). apply SI in B1.
  set (d := h1 ++ map (fun t => (-1 * fst t, snd t)) h2).
  assert (Ed : forall m, cf d m = cf h1 m - cf h2 m) by (intros m; unfold d; rewrite cf_app, (cf_scale (-1) h2 m); ring).
  assert (Id : ideal nv p (pfs G1) (cf d)).
  { eapply lspan_ext; [apply lspan_sub; [apply lspan_add; [exact HI|exact B1]|exact A1]|]. intros m _. rewrite Ed. cbv beta. ring. }
  assert (Ld : lens nv d).
  { intros t Ht. unfold d in Ht. apply in_app_or in Ht as [Ht|Ht]; [apply (nf_terms nv lt p h1 t A3 Ht)|]. apply in_map_iff in Ht as (s & <- & Hs). cbn [snd]. apply (nf_terms nv lt p h2 s B3 Hs). }
  destruct (lead_exists nv lt p MO d Ld) as [Z0|(m & Hm)].
  - apply (sorted_poly_eq nv lt p MO Hp); [exact A3|exact B3|]. intros m Lm. specialize (Z0 m Lm). rewrite Ed in Z0. unfold eqp, pzero in *. rewrite Z.sub_0_r in Z0. exact Z0.
  - exfalso. assert (Id2 : ideal nv p (pfs G2) (cf d)) by (apply SI; exact Id). destruct (R1 _ _ Id Hm) as (g1 & l1 & Hg1 & Hl1 & D1). destruct (R2 _ _ Id2 Hm) as (g2 & l2 & Hg2 & Hl2 & D2).
    assert (Hin : exists t, In t d /\ snd t = m). { destruct Hm as (_ & Nz & _). apply (cf_nz d m). intros C. apply Nz. rewrite C. exists 0. ring. }
    destruct Hin as (t & Ht & Em). unfold d in Ht. apply in_app_or in Ht as [Ht|Ht].
    + apply (A2 t g1 l1 Ht Hg1 Hl1). rewrite Em. exact D1.
    + apply in_map_iff in Ht as (s & E & Hs). rewrite <- E in Em. cbn [snd] in Em. apply (B2 s g2 l2 Hs Hg2 Hl2). rewrite Em. exact D2.
Qed.

(** Congruent polynomials get the same normal form, whatever the Groebner basis of the ideal, the field representation, the number of
    threads and the other options of the two runs. *)
Theorem C61_canonical : forall c1 c2 fuel1 fuel2 G1 G2 f1 f2 h1 h2, cfg_ok c1 -> cfg_ok c2 -> c_o c1 = c_o c2 -> c_p c1 = c_p c2 ->
  let nv := o_nv (c_o c1) in let lt := o_lt (c_o c1) in let p := c_p c1 in
  monic_list nv lt p G1 -> monic_list nv lt p G2 -> same_ideal nv p (pfs G1) (pfs G2) -> groebner nv lt p (pfs G1) -> groebner nv lt p (pfs G2) ->
  sorted_poly nv lt p f1 -> sorted_poly nv lt p f2 -> ideal nv p (pfs G1) (fun u => cf f1 u - cf f2 u) ->
  basis_nf c1 fuel1 G1 [f1] = Ok [h1] -> basis_nf c2 fuel2 G2 [f2] = Ok [h2] -> h1 = h2.
Proof.
  intros c1 c2 fuel1 fuel2 G1 G2 f1 f2 h1 h2 C1 C2 Eo Ep nv lt p M1 M2 SI R1 R2 S1 S2 HI E1 E2.
  pose proof (C61_sound c1 fuel1 G1 [f1] [h1] C1 M1 (Forall_cons _ S1 (Forall_nil _)) E1) as N1. inversion N1 as [|? ? ? ? N1' _]; subst. assert (M2' := M2). assert (S2' := S2). unfold nv, lt, p in M2', S2'. rewrite Eo, Ep in M2', S2'.
  pose proof (C61_sound c2 fuel2 G2 [f2] [h2] C2 M2' (Forall_cons _ S2' (Forall_nil _)) E2) as N2. inversion N2 as [|? ? ? ? N2' _]; subst. rewrite <- Eo, <- Ep in N2'.
  exact (nf_unique nv lt p (o_lt_order (c_o c1)) (cfg_p c1 C1) G1 G2 f1 f2 h1 h2 SI R1 R2 HI N1' N2').
Qed.
Print Assumptions C61_canonical.

(** Ideal membership: with a basis returned by the basis computation (reduced or not), a polynomial is in the ideal of the input if
    and only if its normal form is zero. *)
Theorem C61_membership : forall c red fuel fuel' F G tbr hs, cfg_ok c ->
  let nv := o_nv (c_o c) in let lt := o_lt (c_o c) in let p := c_p c in
  Forall (sorted_poly nv lt p) F -> core_f4 c red fuel F = Ok G -> Forall (sorted_poly nv lt p) tbr -> basis_nf c fuel' G tbr = Ok hs ->
  Forall2 (fun f h => (ideal nv p (pfs F) (cf f) <-> h = []) /\ ideal nv p (pfs F) (fun u => cf f u - cf h u)) tbr hs.
Proof.
  intros c red fuel fuel' F G tbr hs CK nv lt p HF EF HT E. destruct (C23_sound c red fuel F G CK HF EF) as (A & B & _ & D & _). pose proof (C61_sound c fuel' G tbr hs CK D HT E) as N. eapply F2_imp; [|exact N]. fold nv lt p. intros f h Hf Nf. pose proof Nf as (N1 & N2 & N3).
  assert (N1' : ideal nv p (pfs F) (fun u => cf f u - cf h u)) by (apply A; exact N1). split; [|exact N1']. split.
  - intros If. apply A in If. apply (nf_unique nv lt p (o_lt_order (c_o c)) (cfg_p c CK) G G f [] h []); auto; [intros g; reflexivity| |].
    + eapply lspan_ext; [exact If|]. intros m _. cbn [cf]. ring.
    + split; [apply lspan_zero; intros m _; reflexivity|]. split; [intros t g l []|left; reflexivity].
  - intros ->. eapply lspan_ext; [exact N1'|]. intros m _. cbn [cf]. ring.
Qed.
Print Assumptions C61_membership.

(** * The multiplication matrix with these normal forms *)
Lemma o_drl o : o_nev o = 0%nat -> o_mo o <> 1%nat -> o_lt o = drl_lt.
Proof. intros E0 E1. unfold o_lt, sel. rewrite E0. cbn [Nat.ltb Nat.leb]. destruct (Nat.eqb_spec (o_mo o) 1); [contradiction|reflexivity]. Qed.
Lemma sorted_inc nv p h : h = [] \/ sorted_poly nv drl_lt p h -> inc (rev h).
Proof.
  intros [->|(_ & _ & K)]; [constructor|]. unfold inc. induction h as [|t h IH]; [constructor|]. cbn [rev]. rewrite map_app. cbn [map]. apply sorted_app_one.
  - apply IH. intros i j s u Hi Hj Hij. apply (K (S i) (S j) s u); [exact Hi|exact Hj|lia].
  - intros z Hz. apply in_map_iff in Hz as (s & <- & Hs). apply in_rev in Hs. apply In_nth_error in Hs as (j & Hj). apply (K 0%nat (S j) t s); [reflexivity|exact Hj|lia].
Qed.
Lemma mono_sorted nv p m : 1 < p -> length m = nv -> sorted_poly nv drl_lt p [(1, m)].
Proof. intros Hp Lm. split; [discriminate|]. split; [intros t [<-|[]]; cbn [fst snd]; split; [lia|exact Lm]|]. intros i j s t Hi Hj Hij. destruct i, j; cbn in Hi, Hj; try lia; destruct j; discriminate. Qed.
Lemma mono_nf_contract c fuel G : cfg_ok c -> o_nev (c_o c) = 0%nat -> o_mo (c_o c) <> 1%nat -> reduced_gb (o_nv (c_o c)) (c_p c) G -> nf_contract (o_nv (c_o c)) (c_p c) (pfs G) (leads G) (mono_nf c fuel G).
Proof.
  intros CK E0 E1 HG ms hs HM E. pose proof (cfg_p c CK) as Hp. assert (En : basis_nf c fuel G (map (fun m : mono => [(1, m)]) ms) = Ok hs).
  { unfold mono_nf in E. destruct (basis_nf c fuel G (map (fun m : mono => [(1, m)]) ms)); try discriminate E. injection E as ->. reflexivity. }
  assert (K : Forall2 (normal_form_of (o_nv (c_o c)) drl_lt (c_p c) (pfs G)) (map (fun m => [(1, m)]) ms) hs).
  { rewrite <- (o_drl (c_o c) E0 E1). apply (C61_sound c fuel G _ hs CK); [rewrite (o_drl (c_o c) E0 E1); exact (proj1 (proj2 (proj2 HG)))| |exact En].
    rewrite (o_drl (c_o c) E0 E1). apply Forall_forall. intros f Hf. apply in_map_iff in Hf as (m & <- & Hm). rewrite Forall_forall in HM. apply mono_sorted; [exact Hp|]. exact (HM m Hm). }
  clear En E. revert hs K. induction HM as [|m ms Lm HM IH]; intros hs K; inversion K as [|f h fs hs0 K1 K2]; subst; constructor; [|apply IH; exact K2]. destruct K1 as (A & B & C). split; [|split; [apply (sorted_inc _ _ h C)|exact A]].
  intros t Ht. split; [destruct C as [->|(_ & C & _)]; [destruct Ht|]; apply (C t Ht)|]. split; [exact (nf_terms _ _ _ h t C Ht)|]. intros l Hl Hd. unfold leads in Hl. apply in_map_iff in Hl as (g & <- & Hg). destruct HG as (_ & _ & HS & _). destruct (HS g Hg) as [Sg (lm0 & g' & Eg)]. apply (B t (cf g) (lead g) Ht); [exists g; split; [exact Hg|reflexivity]| |exact Hd].
  rewrite Eg. cbn [lead snd]. rewrite Eg in Sg. apply (mpoly_lead _ drl_lt _ (mono_order_drl _) Hp ((1, lm0) :: g')). split; [exact Sg|]. exists lm0, g'. reflexivity.
Qed.
(** With the normal forms computed by core_nf: for all large enough numbers of steps, the matrix is refused because too many normal
    forms are needed, or the computation of the normal forms reached a limit of the representation (an exponent vector of degree 2^16
    or more, or too many columns for the 8- or 16-bit kernel), or the result is the matrix of the multiplication. *)
Theorem C59_run : forall c G lmb unstable, cfg_ok c -> o_nev (c_o c) = 0%nat -> o_mo (c_o c) <> 1%nat -> (1 <= o_nv (c_o c))%nat ->
  let nv := o_nv (c_o c) in let p := c_p c in
  reduced_gb nv p G -> StronglySorted drl_lt lmb -> (forall m, In m lmb <-> standard nv (leads G) m) -> lmb <> [] -> Z.of_nat (length (concat G)) <= 2147483647 ->
  Z.of_nat (length lmb) < 2 ^ 32 -> Z.of_nat (length (border nv lmb)) * Z.of_nat (length lmb) <= 2 ^ 32 ->
  let extras := length (strict_border nv G lmb) in
  let allowed := threshold unstable (length lmb - (length (border nv lmb) - extras)) in
  exists N, forall fuel, (N <= fuel)%nat ->
  ((allowed < extras)%nat /\ build_matrixn nv p unstable (mono_nf c fuel G) lmb (leads G) G = Some None) \/
  ((extras <= allowed)%nat /\ basis_nf c fuel G (map (fun m => [(1, mmul (xpow nv (nv - 1) 1) m)]) (strict_border nv G lmb)) = Limit) \/
  ((extras <= allowed)%nat /\ exists m M, build_matrixn nv p unstable (mono_nf c fuel G) lmb (leads G) G = Some (Some m) /\ m_ncols m = length lmb /\
     represents p m M /\ mult_matrix nv p (pfs G) (length lmb) (fun i => cf [(1, nth i lmb [])]) M).
Proof.
  intros c G lmb unstable CK E0 E1 NV nv p HG BS BI D1 SZ S1 S2 extras allowed. pose proof (cfg_p c CK) as Hp. fold p in Hp.
  assert (HM : monic_list (o_nv (c_o c)) (o_lt (c_o c)) (c_p c) G) by (rewrite (o_drl (c_o c) E0 E1); exact (proj1 (proj2 (proj2 HG)))).
  assert (HT : Forall (sorted_poly (o_nv (c_o c)) (o_lt (c_o c)) (c_p c)) (map (fun m => [(1, mmul (xpow nv (nv - 1) 1) m)]) (strict_border nv G lmb))).
  { rewrite (o_drl (c_o c) E0 E1). apply Forall_forall. intros f Hf. apply in_map_iff in Hf as (m & <- & Hm). apply mono_sorted; [exact Hp|]. unfold strict_border, border in Hm. apply filter_In in Hm as [Hm _]. apply filter_In in Hm as [Hm _]. apply BI in Hm. apply xm_len; [exact NV|]. apply Hm. }
  destruct (C61_terminates c G _ CK HM HT) as (N & H). exists N. intros fuel Hf. specialize (H fuel Hf).
  destruct (C59_matrix nv p G lmb (mono_nf c fuel G) unstable NV ltac:(lia) HG BS BI D1 (mono_nf_contract c fuel G CK E0 E1 HG) SZ S1 S2) as [K|[(K1 & K2 & K3 & K4)|K]]; [left; exact K| |right; right; exact K].
  right. left. split; [exact K1|]. destruct H as [H|(hs & H)]; [exact H|]. exfalso. unfold mono_nf in K3. rewrite map_map in K3. rewrite H in K3. discriminate K3.
Qed.
Print Assumptions C59_run.

(** * Cases *)
(** The basis y^2 + x, x y - 1, x^2 + y modulo 101 (C23_ex): x^3 y + 5 x^2 reduces to -6 y, a member of the ideal to zero, x + 3 to itself; the same with the
    8-bit representation. *)
Definition nf_tbr : list (list (Z * mono)) := [[(1, [3; 1]%N); (5, [2; 0]%N)]; [(1, [3; 0]%N); (1, [1; 1]%N)]; [(7, [1; 0]%N); (3, [0; 0]%N)]].
Example C61_ex : monic_list 2 (o_lt ord2) 101 out_ex /\ Forall (sorted_poly 2 (o_lt ord2) 101) nf_tbr /\
  basis_nf cfg1 20 out_ex nf_tbr = Ok [[(95, [0; 1]%N)]; []; [(7, [1; 0]%N); (3, [0; 0]%N)]] /\
  basis_nf cfg2 20 out_ex nf_tbr = Ok [[(95, [0; 1]%N)]; []; [(7, [1; 0]%N); (3, [0; 0]%N)]] /\ basis_nf cfg1 1 out_ex nf_tbr = More.
Proof.
  split; [|split; [|repeat split; vm_compute; reflexivity]].
  - destruct C23_ex as (C1 & _ & E1 & _). destruct (C23_sound cfg1 true 20 f4_ex out_ex C1 (proj1 f4_ex_sorted) E1) as (_ & _ & _ & H & _). exact H.
  - repeat (apply Forall_cons; [apply (sortedb_ok ord2); [apply ord2_ok|discriminate|vm_compute; reflexivity]|]). constructor.
Qed.
(** With a basis that is not a Groebner basis the result still is a normal form, but a member of the ideal may have a nonzero one:
    y^2 + x is y (x^2 + y) - x (x y - 1). *)
Example C61_not_groebner : basis_nf cfg1 20 [[(1, [1; 1]%N); (100, [0; 0]%N)]; [(1, [2; 0]%N); (1, [0; 1]%N)]] [[(1, [0; 2]%N); (1, [1; 0]%N)]] = Ok [[(1, [0; 2]%N); (1, [1; 0]%N)]].
Proof. vm_compute. reflexivity. Qed.
(** the matrix of C59_ex with the normal form of x0 x1^2 computed by the model *)
Example C59_run_ex : basis_nf cfg1 20 bx_gb [[(1, [1; 2]%N)]] = Ok [[(2, [1; 0]%N)]] /\
  build_matrixn 2 101 2 (mono_nf cfg1 20 bx_gb) bx_lmb (leads bx_gb) bx_gb = build_matrixn 2 101 2 bx_nf bx_lmb (leads bx_gb) bx_gb.
Proof. split; vm_compute; reflexivity. Qed.
