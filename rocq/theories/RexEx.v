(** C76: the system 2x^2 - y, 3xy - 1 modulo 101, a system without solution, and a bad prime. *)
From Coq Require Import ZArith NArith Arith List Bool Lia Znumtheory.
From Verif Require Import LinSpec MonoSpec MonoModel MonoSpecProofs MonoCmpProofs SelProofs GbSpec GbProofs GbIdeal UpdProps LaModel LaProps F4Model F4Rows RoundProofs F4Props FglmSpec FpSpec FpProofs FglmModel FglmExample StepSpec StepModel StepProofs StepProps QgbSpec QgbProofs QgbExist QgbProps QgbEx RurSpec RurProps RexProps.
Import ListNotations.
Open Scope Z_scope.
Notation poly := (list (Z * mono)) (only parsing).

Definition xenv (p : Z) : env := {| e_k := Avx; e_sqf := ex_sqf p; e_sqpart := ex_sqpart p; e_sq := fun _ _ => 0; e_unstable := 2; e_v := fun D => repeat 5 D; e_old := fun D => repeat 0 D |}.
Lemma p101 : prime 101. Proof. exact prime_101. Qed.
Lemma c101 : cfg_ok (qcfg 101). Proof. apply qcfg_ok. left. reflexivity. Qed.
Lemma xenv_ok : env_ok 101 (xenv 101).
Proof. split; [apply ex_contract; apply p101|]. intros D. cbn [xenv e_v e_old]. split; [apply repeat_length|]. split; [intros y Hy; apply repeat_spec in Hy; subst y; lia|apply repeat_length]. Qed.
Lemma mk_setting Fp G0 fuel0 : Forall (sorted_poly 2 (o_lt ord2) 101) Fp -> core_f4 (qcfg 101) true fuel0 Fp = F4Model.Ok G0 -> small_basis 2 G0 -> setting (qcfg 101) (xenv 101) Fp.
Proof.
  intros SF E0 SB. constructor; [apply c101|reflexivity|discriminate|cbn; lia|cbn; lia|apply xenv_ok|exact SF|]. intros fuel G E. assert (G = G0) as ->; [|exact SB]. apply (C23_unique (qcfg 101) (qcfg 101) fuel fuel0 Fp Fp); [apply c101|apply c101|reflexivity|reflexivity|exact SF|exact SF|intros f; reflexivity|exact E|exact E0].
Qed.
Lemma imgs_sorted F Fp : Forall2 (QgbSpec.image 2 (o_lt ord2) 101) F Fp -> Forall (sorted_poly 2 (o_lt ord2) 101) Fp.
Proof. induction 1 as [|x y l l' Q F' IH]; constructor; [apply Q|assumption]. Qed.
Lemma q_setting : setting (qcfg 101) (xenv 101) (qin 101).
Proof.
  apply (mk_setting _ (qout 101) 20); [apply (imgs_sorted qF); apply qimages; left; reflexivity|apply qrun; left; reflexivity|].
  assert (LG : BasisProofs.leads (qout 101) = [[0; 2]; [1; 1]; [2; 0]]%N) by (vm_compute; reflexivity). split; [vm_compute; discriminate|]. rewrite LG. intros L [ND HL]. assert (Q : (length L <= length [[0; 0]; [0; 1]; [1; 0]]%N)%nat).
  { apply NoDup_incl_length; [exact ND|]. intros m Hm. apply HL in Hm as [Lm Hs]. destruct m as [|a [|b [|? ?]]]; try discriminate Lm.
    assert (A : ~ mdvd [0; 2]%N [a; b]) by (apply Hs; left; reflexivity). assert (B : ~ mdvd [1; 1]%N [a; b]) by (apply Hs; right; left; reflexivity). assert (C : ~ mdvd [2; 0]%N [a; b]) by (apply Hs; right; right; left; reflexivity).
    assert (D : forall u v, (u <= a)%N -> (v <= b)%N -> mdvd [u; v] [a; b]) by (intros u v Hu Hv [|[|i]]; cbn; [exact Hu|exact Hv|destruct i; lia]).
    assert (a < 2)%N by (apply N.nle_gt; intros Q; apply C, D; lia). assert (b < 2)%N by (apply N.nle_gt; intros Q; apply A, D; lia). assert (a = 0 \/ b = 0)%N by (destruct (N.eq_dec a 0); [left; assumption|]; destruct (N.eq_dec b 0); [right; assumption|]; exfalso; apply B, D; lia).
    assert (a = 0 \/ a = 1)%N as [->| ->] by lia; assert (b = 0 \/ b = 1)%N as [->| ->] by lia; cbn [In]; auto; lia. }
  cbn [length] in Q. split; [lia|]. unfold HilbModel.i32_max; lia.
Qed.
Lemma ndiv101 x : x mod 101 <> 0 -> ~ (101 | x). Proof. intros H D. apply H. apply Z.mod_divide; [lia|exact D]. Qed.
Example C76_good_ex : good_reduction 2 (o_lt ord2) qF qG 101.
Proof. split; [apply C71_lucky_ex; left; reflexivity|]. intros g [<-|[<-|[<-|[]]]]; apply ndiv101; vm_compute; discriminate. Qed.
(** T^3 - 2/9 modulo 101: T^3 + 11 *)
Example C76_run_ex : exists cp, modular_step (qcfg 101) (xenv 101) 20 (qin 101) = F4Model.Ok (Done (Param [11; 0; 0; 1] cp)).
Proof. eexists. vm_compute. reflexivity. Qed.
Example C76_answers_ex : exists E cs, rational_param 2 qF 3 E cs /\ ~ (101 | nth 3 E 0) /\ exists a, FpSpec.peq 101 E (pscal a [11; 0; 0; 1]).
Proof.
  destruct C76_run_ex as (cp & R). destruct (C76_answers ord2 qF qG 101 ltac:(cbn; lia) qF_sorted C71_basis_ex p101 C76_good_ex (qcfg 101) (xenv 101) 20 (qin 101) _ q_setting eq_refl eq_refl (qimages 101 (or_introl eq_refl)) R) as (_ & _ & H). apply (H _ _ eq_refl). cbn. lia.
Qed.
(** no solution: 2x - 1, 2x - 3 *)
Definition nF : list poly := [[(2, [1; 0]%N); (-1, [0; 0]%N)]; [(2, [1; 0]%N); (-3, [0; 0]%N)]].
Definition nG : list poly := [[(1, [0; 0]%N)]].
Definition nin : list poly := [[(2, [1; 0]%N); (100, [0; 0]%N)]; [(2, [1; 0]%N); (98, [0; 0]%N)]].
Lemma nF_sorted : Forall (zsorted 2 (o_lt ord2)) nF.
Proof. repeat (constructor; [apply (zsortedb_ok ord2); [apply ord2_ok|discriminate|reflexivity]|]). constructor. Qed.
Lemma nG_sorted : Forall (zsorted 2 (o_lt ord2)) nG.
Proof. repeat (constructor; [apply (zsortedb_ok ord2); [apply ord2_ok|discriminate|reflexivity]|]). constructor. Qed.
Example C76_empty_basis_ex : qbasis 2 (o_lt ord2) nF nG.
Proof.
  pose proof nF_sorted as SF. pose proof nG_sorted as SG. assert (LF : forall g, In g nF -> lens 2 g) by (rewrite Forall_forall in SF; intros g Hg; apply (z_len _ _ g (SF g Hg))). assert (LG : forall g, In g nG -> lens 2 g) by (rewrite Forall_forall in SG; intros g Hg; apply (z_len _ _ g (SG g Hg))).
  split; [exact SG|]. split; [|split; [|split]].
  - intros f. split; apply qideal_sub.
    + intros g [<-|[<-|[]]]; [apply (cert_ideal_ok 2 nG _ [(2, [1; 0]%N, 0%nat); (-1, one2, 0%nat)])|apply (cert_ideal_ok 2 nG _ [(2, [1; 0]%N, 0%nat); (-3, one2, 0%nat)])]; try exact LG; reflexivity.
    + intros g [<-|[]]. apply (qideal_unscale 2 _ 2); [lia|]. eapply qideal_ext; [apply (cert_ideal_ok 2 nF (scale 2 [(1, one2)]) [(1, one2, 0%nat); (-1, one2, 1%nat)]); [exact LF|reflexivity]|]. intros m _. apply cf_scale.
  - apply (q_buchberger 2 (o_lt ord2) (o_lt_order ord2) nG SG). intros g h [<-|[]] [<-|[]]. apply (cert_pair_ok ord2 nG _ _ []); [apply ord2_ok|exact SG|cbn; tauto|cbn; tauto|reflexivity].
  - intros i j f g t Hi Hj Hij. destruct i as [|[|i]]; cbn in Hi; try discriminate; destruct j as [|[|j]]; cbn in Hj; try discriminate. lia.
  - repeat constructor.
Qed.
Lemma n_images : Forall2 (QgbSpec.image 2 (o_lt ord2) 101) nF nin.
Proof. repeat (constructor; [apply (imageb_ok ord2); [apply ord2_ok|lia|discriminate|vm_compute; reflexivity]|]). constructor. Qed.
Lemma small_one : small_basis 2 [[(1, [0; 0]%N)]].
Proof.
  split; [vm_compute; discriminate|]. intros L [ND HL]. assert (L = []) as ->; [|split; [cbn; lia|unfold HilbModel.i32_max; cbn; lia]]. destruct L as [|m L]; [reflexivity|exfalso]. destruct (proj1 (HL m) (or_introl eq_refl)) as [_ Hs]. apply (Hs [0; 0]%N (or_introl eq_refl)). intros [|[|i]]; cbn; try lia. destruct i; lia.
Qed.
Example C76_empty_ex : good_reduction 2 (o_lt ord2) nF nG 101 /\ setting (qcfg 101) (xenv 101) nin /\ modular_step (qcfg 101) (xenv 101) 20 nin = F4Model.Ok Empty /\ qunit 2 nF.
Proof.
  assert (R : core_f4 (qcfg 101) true 20 nin = F4Model.Ok [[(1, [0; 0]%N)]]) by (vm_compute; reflexivity).
  assert (GR : good_reduction 2 (o_lt ord2) nF nG 101).
  { split; [|intros g [<-|[]]; apply ndiv101; vm_compute; discriminate]. apply (lucky_of_run ord2 nF nG (qcfg 101) 20 nin [[(1, [0; 0]%N)]]); [apply c101|reflexivity| |apply n_images|exact R|]; [intros f [<-|[<-|[]]]; apply ndiv101; vm_compute; discriminate|]. constructor; [apply (monicb_ok ord2 101); [apply ord2_ok|lia|vm_compute; reflexivity]|constructor]. }
  assert (ST : setting (qcfg 101) (xenv 101) nin) by (apply (mk_setting _ _ 20 (imgs_sorted _ _ n_images) R small_one)). assert (M : modular_step (qcfg 101) (xenv 101) 20 nin = F4Model.Ok Empty) by (vm_compute; reflexivity).
  split; [exact GR|]. split; [exact ST|]. split; [exact M|]. apply (C76_answers ord2 nF nG 101 ltac:(cbn; lia) nF_sorted C76_empty_basis_ex p101 GR (qcfg 101) (xenv 101) 20 nin Empty ST eq_refl eq_refl n_images M). reflexivity.
Qed.
(** a bad prime: 101x - 1, y has a solution, and none modulo 101 *)
Definition bF : list poly := [[(101, [1; 0]%N); (-1, [0; 0]%N)]; [(1, [0; 1]%N)]].
Definition bin : list poly := [[(100, [0; 0]%N)]; [(1, [0; 1]%N)]].
Theorem C76_bad_refuted : setting (qcfg 101) (xenv 101) bin /\ Forall2 (QgbSpec.image 2 (o_lt ord2) 101) bF bin /\ modular_step (qcfg 101) (xenv 101) 20 bin = F4Model.Ok Empty /\ rational_param 2 bF 1 [0; 1] [([-1], 101)].
Proof.
  assert (IM : Forall2 (QgbSpec.image 2 (o_lt ord2) 101) bF bin) by (repeat (constructor; [apply (imageb_ok ord2); [apply ord2_ok|lia|discriminate|vm_compute; reflexivity]|]); constructor).
  split; [apply (mk_setting _ [[(1, [0; 0]%N)]] 20 (imgs_sorted _ _ IM)); [vm_compute; reflexivity|exact small_one]|]. split; [exact IM|]. split; [vm_compute; reflexivity|].
  split; [lia|]. split; [reflexivity|]. split; [discriminate|]. split; [exists [], [1], 1; split; [lia|]; intros [|[|i]]; apply eqp_zero; reflexivity|]. split; [reflexivity|]. split; [intros c e [X|[]]; injection X as <- <-; cbn; lia|].
  intros f. split; apply RexGen.qideal_incl.
  - intros g (h & [<-|[<-|[]]] & ->).
    + apply qideal_of. eapply lspan_ext; [apply ideal_gen; right; exists 0%nat; split; [lia|reflexivity]|]. intros m _. unfold rd, rc, uni_at. cbn [nth fst snd length seq map Nat.sub cf]. change (xpow 2 1 0) with [0; 0]%N. change (xpow 2 0 1) with [1; 0]%N. destruct (mono_dec [1; 0]%N m), (mono_dec [0; 0]%N m); ring.
    + apply qideal_of. eapply lspan_ext; [apply ideal_gen; left; reflexivity|]. intros m _. unfold uni_at. cbn [nth fst snd length seq map Nat.sub cf]. change (xpow 2 1 0) with [0; 0]%N. change (xpow 2 1 1) with [0; 1]%N. destruct (mono_dec [0; 0]%N m), (mono_dec [0; 1]%N m); ring.
  - intros g [->|(k & Hk & ->)].
    + eapply qideal_ext; [apply (qideal_self 2 bF [(1, [0; 1]%N)]); right; left; reflexivity|]. intros m _. unfold uni_at. cbn [nth fst snd length seq map Nat.sub cf]. change (xpow 2 1 0) with [0; 0]%N. change (xpow 2 1 1) with [0; 1]%N. destruct (mono_dec [0; 0]%N m), (mono_dec [0; 1]%N m); ring.
    + assert (k = 0%nat) as -> by lia. eapply qideal_ext; [apply (qideal_self 2 bF [(101, [1; 0]%N); (-1, [0; 0]%N)]); left; reflexivity|]. intros m _. unfold rd, rc, uni_at. cbn [nth fst snd length seq map Nat.sub cf]. change (xpow 2 1 0) with [0; 0]%N. change (xpow 2 0 1) with [1; 0]%N. destruct (mono_dec [1; 0]%N m), (mono_dec [0; 0]%N m); ring.
Qed.
Print Assumptions C76_bad_refuted.
