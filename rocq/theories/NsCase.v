(** Cases for C77: an input for which all hypotheses hold and two of three solutions are lost; a wrong answer when the last variable is leading in a
    linear form; a wrong answer when the last variable does not separate the solutions; a write outside of an allocated block. *)
From Coq Require Import ZArith NArith Arith List Bool Lia Sorted Znumtheory Ring.
From Verif Require Import ModInvModel LinSpec MonoSpec MonoSpecProofs MonoModel MonoCmpProofs HilbSpec HilbModel GbSpec GbProofs GbIdeal F4Model UpdProps F4Rows RoundProofs FinalProofs F4Props PointSpec PointProofs RingEx.
From Verif Require Import FpSpec FglmSpec NmodModel FpProofs BmProps BmProofs FglmModel MatVecProofs HankelProofs ParamProofs FglmProps BasisProofs BuildModel StepSpec StepModel StepProofs StepProps BuildProps RexFp NsSpec NsModel NsProofs NsPoints NsRun NsStep NsEx NsProps.
Import ListNotations.
Open Scope Z_scope.

Definition ns_env (u : Z) : env2 := {| e2_k := Scalar; e2_sqf := ns_sqf 101; e2_sqpart := ns_sqpart 101; e2_xg := ns_xg 101; e2_al := fun n => S (S n); e2_lam := fun _ => 17; e2_unstable := u;
  e2_v := fun D => map (fun i => Z.of_nat (5 + i * i) mod 101) (seq 0 D); e2_old := fun D => repeat 0 D |}.
Lemma ns_env_ok u : env2_ok 101 (ns_env u).
Proof.
  split; [apply ns_sqf_ok; exact prime_101|]. split; [apply ns_sqpart_ok; exact prime_101|]. split; [apply ns_xg_ok; exact prime_101|]. split; [intros k; cbn; lia|]. split; [intros n; cbn; lia|]. intros D. cbn [ns_env e2_v e2_old].
  split; [rewrite map_length, seq_length; reflexivity|]. split; [|apply repeat_length]. intros x Hx. apply in_map_iff in Hx as (i & <- & _). apply Z.mod_pos_bound. lia.
Qed.
(** (x-1)(x-2)(x-3), (x-1) y, y^2 modulo 101: the solutions are (1,0), (2,0), (3,0) *)
Definition ns_in1 : list poly := [[(1, [3; 0]%N); (95, [2; 0]%N); (11, [1; 0]%N); (95, [0; 0]%N)]; [(1, [1; 1]%N); (100, [0; 1]%N)]; [(1, [0; 2]%N)]].
Definition ns_gb1 : list poly := rev ns_in1.
Definition ns_l1 : list mono := [[0; 0]; [0; 1]; [1; 0]; [2; 0]]%N.
Lemma ns_sorted1 : Forall (sorted_poly 2 (o_lt (c_o cfg1)) 101) ns_in1.
Proof. (constructor; [|constructor; [|constructor; [|constructor]]]); apply (sortedb_ok ord2); try apply ord2_ok; try discriminate; vm_compute; reflexivity. Qed.
Lemma ns_unique1 fuel G : core_f4 cfg1 true fuel ns_in1 = F4Model.Ok G -> G = ns_gb1.
Proof. intros E. apply (C23_unique cfg1 cfg1 fuel 20%nat ns_in1 ns_in1); [exact cfg1_ok|exact cfg1_ok|reflexivity|reflexivity|exact ns_sorted1|exact ns_sorted1|intros f; reflexivity|exact E|vm_compute; reflexivity]. Qed.
Lemma ns_input1 u : ns_input cfg1 (ns_env u) ns_in1.
Proof.
  constructor; [exact cfg1_ok|reflexivity|discriminate|cbn; lia|discriminate|exact (ns_env_ok u)|exact ns_sorted1|]. intros fuel G E. apply ns_unique1 in E. subst G. split; [vm_compute; discriminate|]. intros L [ND HL]. assert (length L <= length ns_l1)%nat.
  { apply NoDup_incl_length; [exact ND|]. intros m Hm. apply HL in Hm as [Lm Hs]. change (o_nv (c_o cfg1)) with 2%nat in Lm. destruct m as [|a [|b [|? ?]]]; try discriminate Lm.
    assert (A : ~ mdvd [0; 2]%N [a; b]) by (apply Hs; left; reflexivity). assert (B : ~ mdvd [1; 1]%N [a; b]) by (apply Hs; right; left; reflexivity). assert (C : ~ mdvd [3; 0]%N [a; b]) by (apply Hs; right; right; left; reflexivity).
    assert (D : forall u v, (u <= a)%N -> (v <= b)%N -> mdvd [u; v] [a; b]) by (intros x y Hu Hv [|[|i]]; cbn; [exact Hu|exact Hv|destruct i; lia]).
    assert (a < 3)%N by (apply N.nle_gt; intros Q; apply C, D; lia). assert (b < 2)%N by (apply N.nle_gt; intros Q; apply A, D; lia). assert (a = 0 \/ b = 0)%N by (destruct (N.eq_dec a 0); [left; assumption|]; destruct (N.eq_dec b 0); [right; assumption|]; exfalso; apply B, D; lia).
    assert (a = 0 \/ a = 1 \/ a = 2)%N as [->|[->| ->]] by lia; assert (b = 0 \/ b = 1)%N as [->| ->] by lia; unfold ns_l1; cbn [In]; auto; lia. }
  cbn [length ns_l1] in H. change (o_nv (c_o cfg1)) with 2%nat. split; [lia|]. unfold i32_max. lia.
Qed.
Lemma ns_run1 : field_answer cfg1 (ns_env 2) 20 true ns_in1 = F4Model.Ok (AParam [0; 1] [[100]]).
Proof. vm_compute. reflexivity. Qed.

(** a point over the dual numbers: (1, e) *)
Notation K2 := (Zp 101 * Zp 101)%type.
Notation d0 := (zp 101 0, zp 101 0).
Notation d1 := (zp 101 1, zp 101 0).
Notation da := (dadd (Zp 101) (zadd 101)).
Notation dm := (dmul (Zp 101) (zadd 101) (zmul 101)).
Notation ds := (dsub (Zp 101) (zsub 101)).
Notation dn := (dopp (Zp 101) (zopp 101)).
Definition ns_dual := dual_mod (Zp 101) (zp 101 0) (zp 101 1) (zadd 101) (zmul 101) (zsub 101) (zopp 101) 101 (zp_mod 101).
Definition ns_pt (i : nat) : K2 := match i with O => d1 | _ => (zp 101 0, zp 101 1) end.
Lemma ns_zero1 : zero_of K2 d0 d1 da dm dn ns_in1 ns_pt.
Proof. intros f [<-|[<-|[<-|[]]]]; (match goal with |- ?a = _ => rewrite (surjective_pairing a) end); f_equal; apply zp_ext; vm_compute; reflexivity. Qed.
Lemma ns_uval x y r : uval K2 d0 d1 da dm dn (zp 101 0, zp 101 1) (x :: y :: r) = (zp 101 x, zp 101 y).
Proof.
  cbn [PointSpec.uval]. rewrite !(dual_kz (Zp 101) (zp 101 0) (zp 101 1) (zadd 101) (zmul 101) (zsub 101) (zopp 101) 101 (zp_mod 101)), !zp_kz. generalize (uval K2 d0 d1 da dm dn (zp 101 0, zp 101 1) r). intros [u0 u1].
  unfold dadd, dmul. cbn [fst snd]. rewrite <- (zp_zrep 101 u0), <- (zp_zrep 101 u1). rewrite <- !zp_mul, <- !zp_add, <- !zp_mul, <- !zp_add. f_equal; f_equal; ring.
Qed.
Lemma zp_inj0 x : zp 101 x = zp 101 0 -> eqp 101 x 0.
Proof. intros H. apply (f_equal (zrep 101)) in H. rewrite !zrep_zp, Zmod_0_l in H. unfold eqp. rewrite Z.sub_0_r. apply Z.mod_divide; [discriminate|exact H]. Qed.
Add Ring pr_nscase : (pring 101) (setoid (peq_eq 101) (prext 101)).
Lemma ns_low g : eqp 101 (pc g 0) 0 -> eqp 101 (pc g 1) 0 -> pdvd 101 [0; 0; 1] g.
Proof.
  intros H0 H1. exists (skipn 2 g). assert (E : FpSpec.peq 101 (FpSpec.pmul (skipn 2 g) [0; 0; 1]) (pshift 2 (skipn 2 g))) by (rewrite (pshift_pmul 101); change (pX 2) with [0; 0; 1]; ring). rewrite E. intros i. rewrite pc_pshift. destruct i as [|[|i]]; [exact H0|exact H1|].
  cbn [Nat.ltb Nat.leb Nat.sub]. unfold pc. rewrite Nat.sub_0_r. destruct g as [|a [|b g]]; [destruct i; reflexivity|destruct i; reflexivity|reflexivity].
Qed.
Lemma ns_gen F a : Forall (sorted_poly 2 (o_lt (c_o cfg1)) 101) F -> zero_of K2 d0 d1 da dm dn F a -> a 1%nat = (zp 101 0, zp 101 1) -> In [(1, [0; 2]%N)] F -> generates_last 2 101 (pfs F) [0; 0; 1].
Proof.
  intros HF Z1 EA IY g. split.
  - intros H. assert (Z0 : zero_at K2 d0 d1 da dm dn 101 2 a (uni_at 2 1 g)).
    { apply (ideal_zero K2 d0 d1 da dm ds dn 101 (proj1 ns_dual) 2 a (pfs F)); [|exact H]. apply (list_zero K2 d0 d1 da dm ds dn 101 (proj1 ns_dual) (proj2 ns_dual) 2 F a (sorted_len _ _ _ _ HF)). exact Z1. }
    apply (zero_uni 2 101 ltac:(lia) K2 d0 d1 da dm ds dn ns_dual a g) in Z0. cbn [Nat.sub] in Z0. rewrite EA in Z0. apply ns_low; destruct g as [|x [|y g]]; try reflexivity.
    + cbn [PointSpec.uval] in Z0. rewrite (dual_kz (Zp 101) (zp 101 0) (zp 101 1) (zadd 101) (zmul 101) (zsub 101) (zopp 101) 101 (zp_mod 101)), zp_kz in Z0. unfold dadd, dmul in Z0. cbn [fst snd] in Z0. rewrite <- !zp_mul, <- !zp_add in Z0. apply (f_equal fst) in Z0. cbn [fst] in Z0. apply zp_inj0. rewrite <- Z0. f_equal. unfold pc. cbn [nth]. ring.
    + rewrite ns_uval in Z0. apply (f_equal fst) in Z0. cbn [fst] in Z0. apply zp_inj0. exact Z0.
    + rewrite ns_uval in Z0. apply (f_equal snd) in Z0. cbn [snd] in Z0. apply zp_inj0. exact Z0.
  - intros (c & Ec). assert (U : ideal 2 101 (pfs F) (uni_at 2 1 [0; 0; 1])).
    { eapply I_eq; [apply (ideal_gen 2 101 (pfs F) (cf [(1, [0; 2]%N)])); exists [(1, [0; 2]%N)]; split; [exact IY|reflexivity]|]. intros m _. unfold uni_at. cbn [length seq map nth cf fst snd]. change (xpow 2 1 2) with [0; 2]%N. exists 0. destruct (mono_dec (xpow 2 1 0) m), (mono_dec (xpow 2 1 1) m), (mono_dec [0; 2]%N m); ring. }
    eapply I_eq; [apply (uni_mul 2 101 _ ltac:(lia) c [0; 0; 1]); exact U|]. intros x _. apply (uni_peq 2 101 ltac:(lia)). exact Ec.
Qed.
Lemma ns_gen1 : generates_last 2 101 (pfs ns_in1) [0; 0; 1].
Proof. apply (ns_gen ns_in1 ns_pt); [exact ns_sorted1|exact ns_zero1|reflexivity|right; right; left; reflexivity]. Qed.
Lemma ns_in_y2 : ideal 2 101 (pfs ns_in1) (cf [(1, [0; 2]%N)]).
Proof. apply ideal_gen. exists [(1, [0; 2]%N)]. split; [right; right; left; reflexivity|reflexivity]. Qed.
(** 1 and y are the first two monomials of the basis, and y^2 is in the ideal: the minimal polynomial is y^2 as soon as the second entry of the start
    vector is 6 *)
Lemma ns_luck F l M v0 : (2 <= length l)%nat -> nth 0 l [] = [0; 0]%N -> nth 1 l [] = [0; 1]%N -> v0 1%nat = 6 -> independent 2 101 (pfs F) (length l) (fun i => cf [(1, nth i l [])]) ->
  ideal 2 101 (pfs F) (cf [(1, [0; 2]%N)]) -> mult_matrix 2 101 (pfs F) (length l) (fun i => cf [(1, nth i l [])]) M -> minimal_polynomial 101 [0; 0; 1] (fun i => mpow (length l) M v0 i 0%nat).
Proof.
  intros L2 N0 N1 HV IND Y2 [_ MM]. set (D := length l) in *.
  assert (R0 : forall j, (j < D)%nat -> eqp 101 (M 0%nat j) (if (j =? 1)%nat then 1 else 0)).
  { intros j Hj. assert (A : eqp 101 ((if (j =? 1)%nat then 1 else 0) - M 0%nat j) 0).
    { apply (IND (fun j => (if (j =? 1)%nat then 1 else 0) - M 0%nat j)); [|exact Hj]. eapply I_eq; [apply (MM 0%nat); lia|]. intros m Lm. exists 0. rewrite N0.
      rewrite (pmul_cf 2); [|reflexivity|intros t [<-|[]]; reflexivity|exact Lm]. cbn [fold_right fst snd]. change (mmul (xpow 2 (2 - 1) 1) [0; 0]%N) with [0; 1]%N.
      rewrite (sumn_ext D _ (fun i => (if (i =? 1)%nat then cf [(1, nth i l [])] m else 0) + -1 * (M 0%nat i * cf [(1, nth i l [])] m))) by (intros i _; destruct (i =? 1)%nat; ring). rewrite sumn_add, sumn_scal, sumn_delta by lia. rewrite N1. cbn [cf fst snd]. destruct (mono_dec [0; 1]%N m); ring. }
    destruct A as [z A]. exists (- z). lia. }
  assert (R1 : forall j, (j < D)%nat -> eqp 101 (M 1%nat j) 0).
  { intros j Hj. apply (IND (fun j => M 1%nat j)); [|exact Hj]. pose proof (MM 1%nat ltac:(lia)) as A. eapply I_eq; [apply (ls_lin 2 101 _ (-1) _ _ A Y2)|]. intros m Lm. exists 0. rewrite N1. rewrite (pmul_cf 2); [|reflexivity|intros t [<-|[]]; reflexivity|exact Lm]. cbn [fold_right fst snd]. change (mmul (xpow 2 (2 - 1) 1) [0; 1]%N) with [0; 2]%N. cbn [cf fst snd]. destruct (mono_dec [0; 2]%N m); ring. }
  set (s := fun i => mpow D M v0 i 0%nat).
  assert (S1 : forall i, eqp 101 (s (S i)) (mpow D M v0 i 1%nat)).
  { intros i. unfold s. cbn [mpow]. unfold mvec at 1. rewrite (sumn_eqp 101 D _ (fun j => if (j =? 1)%nat then mpow D M v0 i j else 0)) by (intros j Hj; rewrite (R0 j Hj); destruct (j =? 1)%nat; exists 0; ring). rewrite sumn_delta by lia. reflexivity. }
  assert (S2 : forall i, eqp 101 (s (S (S i))) 0).
  { intros i. rewrite S1. cbn [mpow]. unfold mvec at 1. rewrite (sumn_eqp 101 D _ (fun j => 0)) by (intros j Hj; rewrite (R1 j Hj); exists 0; ring). rewrite sumn_zero. reflexivity. }
  assert (V1 : eqp 101 (s 1%nat) 6) by (rewrite S1; cbn [mpow]; rewrite HV; reflexivity). split.
  - intros i. cbn [apply_at]. rewrite (S2 i). exists 0. ring.
  - intros W HW. assert (T : forall q i, eqp 101 (apply_at q s (S (S i))) 0) by (intros q; induction q as [|c q IH]; intros i; cbn [apply_at]; [reflexivity|rewrite (S2 i), IH; exists 0; ring]).
    assert (W0 : eqp 101 (pc W 0) 0).
    { destruct W as [|x W]; [reflexivity|]. pose proof (HW 1%nat) as A. cbn [apply_at] in A. rewrite (T W 0%nat), V1 in A. unfold pc. cbn [nth]. rewrite Z.add_0_r in A. destruct A as [z A]. exists (17 * z - x). lia. }
    apply ns_low; [exact W0|]. destruct W as [|x [|y W]]; [reflexivity|reflexivity|]. pose proof (HW 0%nat) as A. cbn [apply_at] in A. rewrite (T W 0%nat), V1 in A. unfold pc in W0 |- *. cbn [nth] in W0 |- *. rewrite W0 in A. destruct A as [z A]. exists (17 * z - y). lia.
Qed.
Lemma ns_lucky F G l E cs u r : ns_input cfg1 (ns_env u) F -> (forall H, core_f4 cfg1 true 20 F = F4Model.Ok H -> H = G) -> monomial_basis 20 2 (lead_monos G) = HilbModel.Ok (Some l) -> (2 <= length l)%nat -> nth 0 l [] = [0; 0]%N -> nth 1 l [] = [0; 1]%N ->
  ideal 2 101 (pfs F) (cf [(1, [0; 2]%N)]) -> basis_answer cfg1 (ns_env u) 20 r G = F4Model.Ok (AParam E cs) -> generates_last 2 101 (pfs F) [0; 0; 1] -> lucky_run cfg1 (ns_env u) 20 F [0; 0; 1].
Proof.
  intros NI UN BL L2 N0 N1 Y2 RUN GE. split; [exists 2%nat; split; [lia|]; split; [reflexivity|]; split; [reflexivity|]; intros c [<-|[<-|[<-|[]]]]; cbn; lia|]. split; [exact GE|].
  intros G' l' EG EL M MM. pose proof (UN G' EG) as ->. change (o_nv (c_o cfg1)) with 2%nat in EL. rewrite BL in EL. injection EL as <-.
  destruct (f4_reduced_gb cfg1 20 F G cfg1_ok eq_refl ltac:(discriminate) (ni_F _ _ _ NI) EG) as [SI RG].
  destruct (basis_answer_ok cfg1 (ns_env u) 20 r G _ _ cfg1_ok eq_refl ltac:(discriminate) ltac:(cbn; lia) ltac:(discriminate) (ns_env_ok u) RG (ni_small _ _ _ NI 20%nat _ EG) RUN) as (l' & EB & (_ & IND & _) & _).
  change (o_nv (c_o cfg1)) with 2%nat in EB. rewrite BL in EB. injection EB as <-. apply (ns_luck F); [exact L2|exact N0|exact N1| | |exact Y2|exact MM].
  - unfold ns_env, e2_v. rewrite (nth_indep _ 0 (Z.of_nat (5 + 0 * 0) mod 101)) by (rewrite map_length, seq_length; lia). rewrite (map_nth (fun i => Z.of_nat (5 + i * i) mod 101)). rewrite seq_nth by lia. reflexivity.
  - intros c Hc. apply IND, SI. exact Hc.
Qed.
Lemma ns_lucky1 : lucky_run cfg1 (ns_env 2) 20 ns_in1 [0; 0; 1].
Proof. apply (ns_lucky ns_in1 ns_gb1 ns_l1 [0; 1] [[100]] 2 true); [exact (ns_input1 2)|apply ns_unique1|vm_compute; reflexivity|cbn; lia|reflexivity|reflexivity|exact ns_in_y2|vm_compute; reflexivity|exact ns_gen1]. Qed.
Lemma ns_coords1 Q : squarefree_part 101 [0; 0; 1] Q [0; 1] -> coords_exist 2 101 (colon 2 101 (pfs ns_in1) Q) (fun _ => false).
Proof.
  intros (EQ & _). assert (Q1 : FpSpec.peq 101 Q [0; 1]). { apply (pmul_cancel 101 prime_101 Q [0; 1] [0; 1]); [intros A; specialize (A 1%nat); unfold pc in A; cbn in A; destruct A as [z A]; lia|]. rewrite <- EQ. intros i. destruct i as [|[|[|[|i]]]]; reflexivity. }
  intros q Hq _. assert (q = 0%nat) as -> by lia. exists [100]. apply ideal_gen. unfold colon.
  eapply I_eq; [apply (ideal_gen 2 101 (pfs ns_in1) (cf [(1, [1; 1]%N); (100, [0; 1]%N)])); exists [(1, [1; 1]%N); (100, [0; 1]%N)]; split; [right; left; reflexivity|reflexivity]|].
  intros m Lm. unfold qmul. set (s := fun i => GbSpec.pmul (xpow 2 (2 - 1) i) (coord_poly 2 0 (2 - 1) [100]) m). change (eqp 101 (sumn (length Q) (fun i => pc Q i * s (0 + i)%nat)) (cf [(1, [1; 1]%N); (100, [0; 1]%N)] m)).
  rewrite <- apply_sum, (apply_peq 101 _ _ s 0 Q1). cbn [apply_at]. unfold s. rewrite (pmul_at 2 101 (xpow 2 (2 - 1) 1) _ (cf [(1, [1; 0]%N); (100, [0; 0]%N)]) m).
  - rewrite (pmul_cf 2); [|reflexivity|intros t [<-|[<-|[]]]; reflexivity|exact Lm]. exists 0. cbn [map fst snd]. cbn [fold_right fst snd]. change (mmul (xpow 2 (2 - 1) 1) [1; 0]%N) with [1; 1]%N. cbn [fold_right fst snd]. change (mmul (xpow 2 (2 - 1) 1) [0; 0]%N) with [0; 1]%N. cbn [cf fst snd fold_right]. destruct (mono_dec [1; 1]%N m), (mono_dec [0; 1]%N m); ring.
  - reflexivity.
  - exact Lm.
  - intros x _. unfold coord_poly, uni_at. cbn [length seq map nth]. change (xpow 2 0 1) with [1; 0]%N. change (xpow 2 (2 - 1) 0) with [0; 0]%N. cbn [cf fst snd]. exists 0. destruct (mono_dec [1; 0]%N x), (mono_dec [0; 0]%N x); ring.
Qed.
(** The solutions x=2 and x=3 are not in the answer, although every hypothesis of C77_points is met: this is also the concrete case for C77_field and
    C77_points. *)
Notation zp0 := (zp 101 0).
Notation zp1 := (zp 101 1).
Theorem C77_lost_refuted : exists c e fuel F E cs V, ns_input c e F /\ field_answer c e fuel true F = F4Model.Ok (AParam E cs) /\ lucky_run c e fuel F V /\ e2_unstable e = 2 /\
  (forall Q, squarefree_part (c_p c) V Q E -> coords_exist (o_nv (c_o c)) (c_p c) (colon (o_nv (c_o c)) (c_p c) (pfs F) Q) (fun _ => false)) /\
  ring_mod (Zp 101) zp0 zp1 (zadd 101) (zmul 101) (zsub 101) (zopp 101) (c_p c) /\ (forall x y, zmul 101 x y = zp0 -> x = zp0 \/ y = zp0) /\
  exists a, zero_of (Zp 101) zp0 zp1 (zadd 101) (zmul 101) (zopp 101) F a /\ ~ point_of (Zp 101) zp0 zp1 (zadd 101) (zmul 101) (zopp 101) (o_nv (c_o c)) E cs a.
Proof.
  exists cfg1, (ns_env 2), 20%nat, ns_in1, [0; 1], [[100]], [0; 0; 1]. split; [exact (ns_input1 2)|]. split; [exact ns_run1|]. split; [exact ns_lucky1|]. split; [reflexivity|]. split; [exact ns_coords1|]. split; [exact (zp_mod 101)|]. split; [exact (zp_domain 101 prime_101)|].
  exists (fun i => match i with O => zp 101 2 | _ => zp0 end). split.
  - intros f [<-|[<-|[<-|[]]]]; apply zp_ext; vm_compute; reflexivity.
  - intros [_ H]. specialize (H 0%nat ltac:(cbn; lia)). apply (f_equal (zrep 101)) in H. vm_compute in H. discriminate.
Qed.
Print Assumptions C77_lost_refuted.

(** x^3 - 2 and y - 1 modulo 101 with the option `-d 4': the last variable is leading in a linear form, the elimination polynomial has degree 1, and the
    answer is x = 1, y = 1; x^2 is in the basis, and x^3 = 2. *)
Definition ns_in2 : list poly := [[(1, [3; 0]%N); (99, [0; 0]%N)]; [(1, [0; 1]%N); (100, [0; 0]%N)]].
(** x^2 - y and x y - 2 x: (0,0) is a solution, y = 2 goes with x^2 = 2. When the squares are not verified (the second round of the driver, after a random
    linear form) the answer x = -49 y, y in {0, 2} is given. *)
Definition ns_in4 : list poly := [[(1, [2; 0]%N); (100, [0; 1]%N)]; [(1, [1; 1]%N); (99, [1; 0]%N)]].
Theorem C77_false_refuted : exists c e fuel F E cs a, cfg_ok c /\ env2_ok (c_p c) e /\ Forall (sorted_poly (o_nv (c_o c)) (o_lt (c_o c)) (c_p c)) F /\
  e2_unstable e = 4 /\ field_answer c e fuel true F = F4Model.Ok (AParam E cs) /\
  point_of (Zp 101) zp0 zp1 (zadd 101) (zmul 101) (zopp 101) (o_nv (c_o c)) E cs a /\ ~ zero_of (Zp 101) zp0 zp1 (zadd 101) (zmul 101) (zopp 101) F a.
Proof.
  exists cfg1, (ns_env 4), 20%nat, ns_in2, [100; 1], [[100]], (fun _ => zp1). split; [exact cfg1_ok|]. split; [exact (ns_env_ok 4)|]. split.
  { (constructor; [|constructor; [|constructor]]); apply (sortedb_ok ord2); try apply ord2_ok; try discriminate; vm_compute; reflexivity. }
  split; [reflexivity|]. split; [vm_compute; reflexivity|]. split.
  - split; [apply zp_ext; vm_compute; reflexivity|]. intros k Hk. cbn in Hk. assert (k = 0%nat) as -> by lia. apply zp_ext. vm_compute. reflexivity.
  - intros H. specialize (H _ (or_introl eq_refl)). apply (f_equal (zrep 101)) in H. vm_compute in H. discriminate.
Qed.
Print Assumptions C77_false_refuted.
Theorem C77_unverified_refuted : exists c e fuel F E cs a, cfg_ok c /\ env2_ok (c_p c) e /\ Forall (sorted_poly (o_nv (c_o c)) (o_lt (c_o c)) (c_p c)) F /\
  e2_unstable e = 2 /\ field_answer c e fuel true F = F4Model.Ok ASquares /\ field_answer c e fuel false F = F4Model.Ok (AParam E cs) /\
  point_of (Zp 101) zp0 zp1 (zadd 101) (zmul 101) (zopp 101) (o_nv (c_o c)) E cs a /\ ~ zero_of (Zp 101) zp0 zp1 (zadd 101) (zmul 101) (zopp 101) F a.
Proof.
  exists cfg1, (ns_env 2), 20%nat, ns_in4, [0; 99; 1], [[0; 49]], (fun i => match i with O => zp 101 3 | _ => zp 101 2 end). split; [exact cfg1_ok|]. split; [exact (ns_env_ok 2)|]. split.
  { (constructor; [|constructor; [|constructor]]); apply (sortedb_ok ord2); try apply ord2_ok; try discriminate; vm_compute; reflexivity. }
  split; [reflexivity|]. split; [vm_compute; reflexivity|]. split; [vm_compute; reflexivity|]. split.
  - split; [apply zp_ext; vm_compute; reflexivity|]. intros k Hk. cbn in Hk. assert (k = 0%nat) as -> by lia. apply zp_ext. vm_compute. reflexivity.
  - intros H. specialize (H _ (or_introl eq_refl)). apply (f_equal (zrep 101)) in H. vm_compute in H. discriminate.
Qed.
Print Assumptions C77_unverified_refuted.

(** x - y and y^2: the coordinates exist in the ideal itself, the elimination polynomial y^2 is not squarefree. The concrete case for C77_complete. *)
Definition ns_in5 : list poly := [[(1, [1; 0]%N); (100, [0; 1]%N)]; [(1, [0; 2]%N)]].
Definition ns_gb5 : list poly := [[(1, [1; 0]%N); (100, [0; 1]%N)]; [(1, [0; 2]%N)]].
Lemma ns_sorted5 : Forall (sorted_poly 2 (o_lt (c_o cfg1)) 101) ns_in5.
Proof. (constructor; [|constructor; [|constructor]]); apply (sortedb_ok ord2); try apply ord2_ok; try discriminate; vm_compute; reflexivity. Qed.
Lemma ns_unique5 fuel G : core_f4 cfg1 true fuel ns_in5 = F4Model.Ok G -> G = ns_gb5.
Proof. intros E. apply (C23_unique cfg1 cfg1 fuel 20%nat ns_in5 ns_in5); [exact cfg1_ok|exact cfg1_ok|reflexivity|reflexivity|exact ns_sorted5|exact ns_sorted5|intros f; reflexivity|exact E|vm_compute; reflexivity]. Qed.
Lemma ns_input5 u : ns_input cfg1 (ns_env u) ns_in5.
Proof.
  constructor; [exact cfg1_ok|reflexivity|discriminate|cbn; lia|discriminate|exact (ns_env_ok u)|exact ns_sorted5|]. intros fuel G E. apply ns_unique5 in E. subst G. split; [vm_compute; discriminate|]. intros L [ND HL]. assert (length L <= length [[0; 0]; [0; 1]]%N)%nat.
  { apply NoDup_incl_length; [exact ND|]. intros m Hm. apply HL in Hm as [Lm Hs]. change (o_nv (c_o cfg1)) with 2%nat in Lm. destruct m as [|a [|b [|? ?]]]; try discriminate Lm.
    assert (A : ~ mdvd [1; 0]%N [a; b]) by (apply Hs; cbn; auto). assert (B : ~ mdvd [0; 2]%N [a; b]) by (apply Hs; cbn; auto).
    assert (D : forall u v, (u <= a)%N -> (v <= b)%N -> mdvd [u; v] [a; b]) by (intros x y Hu Hv [|[|i]]; cbn; [exact Hu|exact Hv|destruct i; lia]).
    assert (a < 1)%N by (apply N.nle_gt; intros Q; apply A, D; lia). assert (b < 2)%N by (apply N.nle_gt; intros Q; apply B, D; lia).
    assert (a = 0)%N as -> by lia; assert (b = 0 \/ b = 1)%N as [->| ->] by lia; cbn [In]; auto. }
  cbn [length] in H. change (o_nv (c_o cfg1)) with 2%nat. split; [lia|]. unfold i32_max. lia.
Qed.
Example C77_complete_case : exists E cs, ns_input cfg1 (ns_env 2) ns_in5 /\ field_answer cfg1 (ns_env 2) 20 false ns_in5 = F4Model.Ok (AParam E cs) /\ lucky_run cfg1 (ns_env 2) 20 ns_in5 [0; 0; 1] /\ coords_exist 2 101 (pfs ns_in5) (fun _ => false).
Proof.
  exists [0; 1], [[]]. split; [exact (ns_input5 2)|]. split; [vm_compute; reflexivity|]. split.
  - apply (ns_lucky ns_in5 ns_gb5 [[0; 0]; [0; 1]]%N [0; 1] [[]] 2 false); [exact (ns_input5 2)|apply ns_unique5|vm_compute; reflexivity|cbn; lia|reflexivity|reflexivity| |vm_compute; reflexivity|].
    + apply ideal_gen. exists [(1, [0; 2]%N)]. split; [right; left; reflexivity|reflexivity].
    + apply (ns_gen ns_in5 (fun _ => (zp 101 0, zp 101 1))); [exact ns_sorted5| |reflexivity|right; left; reflexivity]. intros f [<-|[<-|[]]]; (match goal with |- ?a = _ => rewrite (surjective_pairing a) end); f_equal; apply zp_ext; vm_compute; reflexivity.
  - intros q Hq _. assert (q = 0%nat) as -> by lia. exists [0; 100]. eapply I_eq; [apply (ideal_gen 2 101 (pfs ns_in5) (cf [(1, [1; 0]%N); (100, [0; 1]%N)])); exists [(1, [1; 0]%N); (100, [0; 1]%N)]; split; [left; reflexivity|reflexivity]|].
    intros x _. unfold coord_poly, uni_at. cbn [length seq map nth]. change (xpow 2 0 1) with [1; 0]%N. change (xpow 2 (2 - 1) 0) with [0; 0]%N. change (xpow 2 (2 - 1) 1) with [0; 1]%N. cbn [cf fst snd]. exists 0. destruct (mono_dec [1; 0]%N x), (mono_dec [0; 0]%N x), (mono_dec [0; 1]%N x); ring.
Qed.

(** nmod_poly_fit_length(., 1) on a polynomial without coefficients allocates one coefficient; a coordinate that is 0 is then written with two: for
    x^2, x y, y^2 the function writes outside of the block. *)
Theorem C77_overrun : exists c e fuel F, cfg_ok c /\ Forall (sorted_poly (o_nv (c_o c)) (o_lt (c_o c)) (c_p c)) F /\ (forall n, (n <= e2_al e n)%nat) /\
  sqf_contract (c_p c) (e2_sqf e) (e2_sqpart e) /\ part_contract (c_p c) (e2_sqpart e) /\ xgcd_contract (c_p c) (e2_xg e) /\ field_answer c e fuel true F = F4Model.Undef.
Proof.
  exists cfg1, {| e2_k := Scalar; e2_sqf := ns_sqf 101; e2_sqpart := ns_sqpart 101; e2_xg := ns_xg 101; e2_al := fun n => n; e2_lam := fun _ => 17; e2_unstable := 2;
    e2_v := fun D => map (fun i => Z.of_nat (5 + i * i) mod 101) (seq 0 D); e2_old := fun D => repeat 0 D |}, 20%nat, [[(1, [2; 0]%N)]; [(1, [1; 1]%N)]; [(1, [0; 2]%N)]].
  split; [exact cfg1_ok|]. split; [(constructor; [|constructor; [|constructor; [|constructor]]]); apply (sortedb_ok ord2); try apply ord2_ok; try discriminate; vm_compute; reflexivity|]. split; [intros n; apply le_n|].
  split; [apply ns_sqf_ok; exact prime_101|]. split; [apply ns_sqpart_ok; exact prime_101|]. split; [apply ns_xg_ok; exact prime_101|]. vm_compute. reflexivity.
Qed.
Print Assumptions C77_overrun.
