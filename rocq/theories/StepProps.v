(** C60: the computation modulo one prime, from the polynomials to the parametrisation of the solutions. *)
From Coq Require Import ZArith NArith Arith List Bool Lia Sorted Znumtheory Ring_theory.
From Verif Require Import ModInvModel LinSpec MonoSpec MonoSpecProofs MonoModel MonoCmpProofs HilbSpec HilbModel GbSpec GbProofs GbIdeal F4Model UpdProps F4Rows RoundProofs FinalProofs F4Props FglmSpec FpSpec FglmModel BuildModel StairProofs BasisProofs BuildProps NfModel NfProps F4Fuel FglmProps FglmExample StepSpec StepModel StepProofs ParamIdeal PointSpec PointProofs.
Import ListNotations.
Open Scope nat_scope.

(** The setting of the theorems: the degree reverse lexicographic order without elimination block (core_gba in msolve.c), an odd prime,
    contracts for the squarefree part and the random vectors, generators in stored form; the sizes of the reduced basis are within the
    32-bit indices of the program. *)
Record setting (c : config) (e : env) (F : list (list (Z * mono))) : Prop := {
  st_c : cfg_ok c; st_nev : o_nev (c_o c) = 0; st_mo : o_mo (c_o c) <> 1; st_nv : 1 <= o_nv (c_o c); st_p : c_p c <> 2%Z;
  st_e : env_ok (c_p c) e; st_F : Forall (sorted_poly (o_nv (c_o c)) (o_lt (c_o c)) (c_p c)) F;
  st_small : forall fuel G, core_f4 c true fuel F = F4Model.Ok G -> small_basis (o_nv (c_o c)) G }.
Lemma sorted_len nv lt p (F : list (list (Z * mono))) : Forall (sorted_poly nv lt p) F -> forall h t, In h F -> In t h -> length (snd t) = nv.
Proof. intros HF h t Hh Ht. rewrite Forall_forall in HF. destruct (HF h Hh) as (A & B & _). apply (B t Ht). Qed.

(** Every answer is correct for the ideal of the input; [step_spec] and [fglm_spec] are in StepProofs. *)
Theorem C60_sound : forall c e fuel F r, setting c e F -> modular_step c e fuel F = F4Model.Ok r ->
  step_spec (o_nv (c_o c)) (c_p c) (pfs F) (e_v e) r.
Proof.
  intros c e fuel F r [CK E0 E1 NV N2 EO HF SM] E. unfold modular_step in E. destruct (core_f4 c true fuel F) as [G| | |] eqn:EG; try discriminate E. cbn [rbind] in E.
  destruct (f4_reduced_gb c fuel F G CK E0 E1 HF EG) as [SI RG]. destruct (basis_step_cases c e G CK E0 E1 NV N2 EO RG (SM fuel G EG)) as (N & ms & _ & H). apply (step_spec_same _ _ _ _ _ _ SI).
  destruct (H fuel) as [K|[[K _]|[[K _]|(r' & K & SP)]]]; rewrite K in E; try discriminate E. injection E as <-. exact SP.
Qed.
Print Assumptions C60_sound.

(** A parametrisation is a system of generators: its points are exactly the common zeroes of the input, in every commutative ring
    where p = 0, hence in every extension of the field with p elements. *)
Theorem C60_points : forall c e fuel F elim cs, setting c e F -> modular_step c e fuel F = F4Model.Ok (Done (Param elim cs)) ->
  same_ideal (o_nv (c_o c)) (c_p c) (pfs F) (param_gens (o_nv (c_o c)) elim cs) /\
  forall K k0 k1 add mul sub opp, ring_mod K k0 k1 add mul sub opp (c_p c) -> forall a,
    zero_of K k0 k1 add mul opp F a <-> point_of K k0 k1 add mul opp (o_nv (c_o c)) elim cs a.
Proof.
  intros c e fuel F elim cs ST E. pose proof (C60_sound c e fuel F _ ST E) as (_ & l & _ & P & _ & GL). destruct ST as [CK E0 E1 NV N2 EO HF SM].
  pose proof (sorted_len _ _ _ F HF) as LF. pose proof (param_same _ _ F _ elim cs NV LF P GL) as SI. split; [exact SI|]. intros K k0 k1 add mul sub opp [RK RP] a.
  rewrite <- (list_zero K k0 k1 add mul sub opp (c_p c) RK RP (o_nv (c_o c)) F a LF). rewrite <- (gens_zero K k0 k1 add mul sub opp (c_p c) RK RP _ elim cs a NV).
  split; apply (same_zero K k0 k1 add mul sub opp (c_p c) RK); [exact SI|]. intros f. symmetry. apply SI.
Qed.
Print Assumptions C60_points.

(** When the answer is that there is no solution, there is none in any commutative ring with p = 0 and 1 <> 0. *)
Theorem C60_empty : forall c e fuel F, setting c e F -> modular_step c e fuel F = F4Model.Ok Empty ->
  forall K k0 k1 add mul sub opp, ring_mod K k0 k1 add mul sub opp (c_p c) -> k1 <> k0 -> forall a, ~ zero_of K k0 k1 add mul opp F a.
Proof.
  intros c e fuel F ST E K k0 k1 add mul sub opp [RK RP] N a ZF. pose proof (C60_sound c e fuel F _ ST E) as U. apply N. exact (unit_no_zero K k0 k1 add mul sub opp (c_p c) RK RP _ F a (sorted_len _ _ _ F (st_F _ _ _ ST)) U ZF).
Qed.
Print Assumptions C60_empty.

(** The parametrisation depends on nothing but the ideal and the prime: not on the generators, the options, the threads, the random
    vectors. *)
Theorem C60_unique : forall c1 c2 e1 e2 fuel1 fuel2 F1 F2 elim1 elim2 cs1 cs2, setting c1 e1 F1 -> setting c2 e2 F2 ->
  o_nv (c_o c1) = o_nv (c_o c2) -> c_p c1 = c_p c2 -> same_ideal (o_nv (c_o c1)) (c_p c1) (pfs F1) (pfs F2) ->
  modular_step c1 e1 fuel1 F1 = F4Model.Ok (Done (Param elim1 cs1)) -> modular_step c2 e2 fuel2 F2 = F4Model.Ok (Done (Param elim2 cs2)) ->
  elim1 = elim2 /\ cs1 = cs2.
Proof.
  intros c1 c2 e1 e2 fuel1 fuel2 F1 F2 elim1 elim2 cs1 cs2 S1 S2 Ev Ep SI R1 R2. pose proof (C60_sound _ _ _ _ _ S1 R1) as T1. pose proof (C60_sound _ _ _ _ _ S2 R2) as T2. rewrite <- Ev, <- Ep in T2. apply (step_spec_same _ _ _ _ _ _ SI) in T2.
  destruct T1 as (_ & l1 & _ & P1 & _ & G1), T2 as (_ & l2 & _ & P2 & _ & G2). exact (param_unique _ _ _ _ _ _ _ _ _ (st_nv _ _ _ S1) (ck_p c1 (st_c _ _ _ S1)) P1 P2 G1 G2).
Qed.
Print Assumptions C60_unique.

(** With enough fuel an answer is reached, unless a monomial of degree 2^16 occurs (Limit; for the normal forms of the matrix this is a
    result that is not reached). *)
Theorem C60_terminates : forall c e F, setting c e F -> exists N, forall fuel, N <= fuel ->
  modular_step c e fuel F = Limit \/ (exists r, modular_step c e fuel F = F4Model.Ok r) \/
  (modular_step c e fuel F = Undef /\ exists G ms, core_f4 c true fuel F = F4Model.Ok G /\ basis_nf c fuel G (map (fun m : mono => [(1%Z, m)]) ms) = Limit).
Proof.
  intros c e F [CK E0 E1 NV N2 EO HF SM]. destruct (C23_terminates c true F CK HF) as (N & HN). destruct (HN N (le_n N)) as [EL|(G & EG)].
  - exists N. intros fuel Hf. left. unfold modular_step. destruct (core_f4_le c true N fuel F Hf) as [K|K]; rewrite EL in K; [discriminate K|]. rewrite K. reflexivity.
  - destruct (f4_reduced_gb c N F G CK E0 E1 HF EG) as [SI RG]. destruct (basis_step_cases c e G CK E0 E1 NV N2 EO RG (SM N G EG)) as (N1 & ms & Lms & H).
    destruct (C61_terminates c G (map (fun m : mono => [(1%Z, m)]) ms) CK) as (N3 & H3).
    { rewrite (o_drl (c_o c) E0 E1). exact (proj1 (proj2 (proj2 RG))). }
    { rewrite (o_drl (c_o c) E0 E1). apply Forall_forall. intros f Hf. apply in_map_iff in Hf as (m & <- & Hm). rewrite Forall_forall in Lms. apply mono_sorted; [exact (cfg_p c CK)|apply Lms; exact Hm]. }
    exists (Nat.max N (Nat.max (S N1) N3)). intros fuel Hf. unfold modular_step. destruct (core_f4_le c true N fuel F ltac:(lia)) as [K|K]; rewrite EG in K; [discriminate K|]. rewrite K. cbn [rbind].
    destruct (H fuel) as [Q|[[_ Q]|[[Q U]|(r & Q & _)]]].
    + left. exact Q.
    + lia.
    + right. right. split; [exact Q|]. exists G, ms. split; [reflexivity|]. destruct (H3 fuel ltac:(lia)) as [L|(hs & L)]; [exact L|]. unfold mono_nf in U. rewrite L in U. discriminate U.
    + right. left. exists r. exact Q.
Qed.
Print Assumptions C60_terminates.

(** * Cases *)
Definition ex_env (k : kernel) (x : Z) : env := {| e_k := k; e_sqf := ex_sqf 101; e_sqpart := ex_sqpart 101; e_sq := fun _ _ => 0%Z; e_unstable := 2;
  e_v := fun D => repeat x D; e_old := fun D => repeat 0%Z D |}.
Lemma ex_env_ok k x : (0 <= x < 101)%Z -> env_ok 101 (ex_env k x).
Proof. intros Hx. split; [apply ex_contract; exact prime_101|]. intros D. cbn [ex_env e_v e_old]. split; [apply repeat_length|]. split; [intros y Hy; apply repeat_spec in Hy; subst y; exact Hx|apply repeat_length]. Qed.
Definition st_in1 : list (list (Z * mono)) := [[(1, [1; 1]%N); (99, [0; 1]%N); (98, [0; 0]%N)]; [(1, [0; 2]%N); (100, [1; 0]%N)]]%Z.
Lemma st_sorted : Forall (sorted_poly 2 (o_lt (c_o cfg1)) 101) st_in1.
Proof. (constructor; [|constructor; [|constructor]]); apply (sortedb_ok ord2); try apply ord2_ok; try discriminate; vm_compute; reflexivity. Qed.
Example C60_setting : forall k x, (0 <= x < 101)%Z -> setting cfg1 (ex_env k x) st_in1.
Proof.
  intros k x Hx. constructor; [exact cfg1_ok|reflexivity|discriminate|cbn; lia|discriminate|exact (ex_env_ok k x Hx)|exact st_sorted|].
  intros fuel G E. assert (EG : G = [[(1, [0; 2]%N); (100, [1; 0]%N)]; [(1, [1; 1]%N); (99, [0; 1]%N); (98, [0; 0]%N)]; [(1, [2; 0]%N); (99, [1; 0]%N); (98, [0; 1]%N)]]%Z).
  { apply (C23_unique cfg1 cfg1 fuel 20 st_in1 st_in1); [exact cfg1_ok|exact cfg1_ok|reflexivity|reflexivity|exact st_sorted|exact st_sorted|intros f; reflexivity|exact E|vm_compute; reflexivity]. }
  subst G. split; [vm_compute; discriminate|]. intros L [ND HL]. assert (length L <= length [[0; 0]; [0; 1]; [1; 0]]%N).
  { apply NoDup_incl_length; [exact ND|]. intros m Hm. apply HL in Hm as [Lm Hs]. change (o_nv (c_o cfg1)) with 2 in Lm. destruct m as [|a [|b [|? ?]]]; try discriminate Lm.
    assert (A : ~ mdvd [0; 2]%N [a; b]) by (apply Hs; left; reflexivity). assert (B : ~ mdvd [1; 1]%N [a; b]) by (apply Hs; right; left; reflexivity). assert (C : ~ mdvd [2; 0]%N [a; b]) by (apply Hs; right; right; left; reflexivity).
    assert (D : forall u v, (u <= a)%N -> (v <= b)%N -> mdvd [u; v] [a; b]) by (intros u v Hu Hv [|[|i]]; cbn; [exact Hu|exact Hv|destruct i; lia]).
    assert (a < 2)%N by (apply N.nle_gt; intros Q; apply C, D; lia). assert (b < 2)%N by (apply N.nle_gt; intros Q; apply A, D; lia). assert (a = 0 \/ b = 0)%N by (destruct (N.eq_dec a 0); [left; assumption|]; destruct (N.eq_dec b 0); [right; assumption|]; exfalso; apply B, D; lia).
    assert (a = 0 \/ a = 1)%N as [->| ->] by lia; assert (b = 0 \/ b = 1)%N as [->| ->] by lia; cbn [In]; auto; lia. }
  cbn [length] in H. change (o_nv (c_o cfg1)) with 2. split; [lia|]. unfold i32_max. lia.
Qed.
Example C60_ex : modular_step cfg1 (ex_env Scalar 5) 20 st_in1 = F4Model.Ok (Done (Param [98; 99; 0; 1] [[0; 0; 100]]))%Z /\
  modular_step cfg1 (ex_env Avx 77) 20 (rev st_in1) = F4Model.Ok (Done (Param [98; 99; 0; 1] [[0; 0; 100]]))%Z /\
  modular_step cfg1 (ex_env Avx 3) 20 bl_in = F4Model.Ok (Done (Param [99; 0; 1] [[1; 1]]))%Z /\
  modular_step cfg1 (ex_env Avx 3) 20 bx_in = F4Model.Ok (Done NotShape) /\
  modular_step cfg1 (ex_env Avx 3) 20 [[(1%Z, [1; 1]%N)]] = F4Model.Ok Positive /\
  modular_step cfg1 (ex_env Avx 3) 20 [[(1, [1; 1]%N)]; [(1, [1; 1]%N); (3, [0; 0]%N)]]%Z = F4Model.Ok Empty.
Proof. repeat split; vm_compute; reflexivity. Qed.
