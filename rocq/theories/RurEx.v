(** C75: the system 2xy - 4y - 3, y^2 - 3x: its parametrisation over the rationals, the computation modulo five primes, the lifting, the boxes. *)
From Coq Require Import ZArith NArith Arith List Bool Lia Znumtheory Reals Lra.
From Verif Require Import LinSpec MonoSpec MonoModel MonoCmpProofs SelProofs GbSpec GbProofs GbIdeal UpdProps LaModel LaProps F4Model F4Rows RoundProofs F4Props FglmSpec FpSpec FpProofs FglmModel FglmExample StepModel StepProofs StepProps PointProofs QgbSpec QgbProofs QgbExist QgbEx QparSpec QparModel QparProofs QparRun QparProps RurSpec RurProofs RurLift RurProps.
From Verif Require Import PolySpec IsolModel RefineModel BoxModel BoxProps.
Import ListNotations.
Open Scope Z_scope.

Definition rF : list (list (Z * mono)) := [[(2, [1; 1]%N); (-4, [0; 1]%N); (-3, [0; 0]%N)]; [(1, [0; 2]%N); (-3, [1; 0]%N)]].
Definition rE : list Z := [-9; -12; 0; 2].
Definition rcs : list (list Z * Z) := [([0; 0; -1], 3)].
Definition rG : list (list (Z * mono)) := [uni_terms 2 1 rE; rterms 2 0 [0; 0; -1] 3].
Lemma rF_sorted : Forall (zsorted 2 (o_lt ord2)) rF.
Proof. repeat (constructor; [apply (zsortedb_ok ord2); [apply ord2_ok|discriminate|vm_compute; reflexivity]|]). constructor. Qed.
Lemma rF_lens g : In g rF -> lens 2 g. Proof. intros [<-|[<-|[]]] t Ht; cbn in Ht; repeat (destruct Ht as [<-|Ht]; [reflexivity|]); contradiction. Qed.
Lemma rG_lens g : In g rG -> lens 2 g. Proof. intros [<-|[<-|[]]] t Ht; cbn in Ht; repeat (destruct Ht as [<-|Ht]; [reflexivity|]); contradiction. Qed.
Lemma cert0 nv G f cert : (forall g, In g G -> lens nv g) -> cert_ideal nv G f cert = true -> ideal nv 0 (pfs G) (cf f).
Proof.
  intros HG H. apply andb_prop in H as [H1 H2]. rewrite forallb_forall in H2. unfold ideal. eapply lspan_ext; [apply (combo_span nv G _ cert); [|exact HG|]|].
  - intros c Hc. specialize (H2 c Hc). apply andb_prop in H2 as [A B]. apply Nat.eqb_eq in A. apply Nat.ltb_lt in B. split; [exact A|]. exists (snd (fst c)), (cf (nth (snd c) G [])). split; [exact A|]. split; [|reflexivity]. exists (nth (snd c) G []). split; [apply nth_In; exact B|reflexivity].
  - intros c Hc. specialize (H2 c Hc). apply andb_prop in H2 as [_ B]. apply Nat.ltb_lt in B. exact B.
  - intros m _. pose proof (nullb_ok _ m H1) as K. unfold scale in K. rewrite cf_app, cf_scale in K. apply move. exact K.
Qed.
(** the generators as a list *)
Lemma rG_gens f : ideal 2 0 (pfs rG) f <-> ideal 2 0 (rgens 2 rE rcs) f.
Proof.
  split; apply ideal_incl.
  - intros g (h & [<-|[<-|[]]] & ->); [apply ideal_gen; left; reflexivity|]. eapply lspan_ext; [apply ideal_gen; right; exists 0%nat; split; [lia|reflexivity]|]. intros m _; first [exact (rterms_cf 2 0 [0; 0; -1] 3 m) | symmetry; exact (rterms_cf 2 0 [0; 0; -1] 3 m)].
  - intros g [->|(k & Hk & ->)]; [apply ideal_gen; exists (uni_terms 2 1 rE); split; [left; reflexivity|reflexivity]|]. assert (k = 0%nat) as -> by lia. eapply lspan_ext; [apply ideal_gen; exists (rterms 2 0 [0; 0; -1] 3); split; [right; left; reflexivity|reflexivity]|]. intros m _. first [exact (rterms_cf 2 0 [0; 0; -1] 3 m) | symmetry; exact (rterms_cf 2 0 [0; 0; -1] 3 m)].
Qed.
Lemma rF_in f : In f rF -> ideal 2 0 (pfs rG) (cf (scale 3 f)).
Proof. intros [<-|[<-|[]]]; [apply (cert0 2 rG _ [(1, [0; 0]%N, 0%nat); (2, [0; 1]%N, 1%nat)])|apply (cert0 2 rG _ [(-3, [0; 0]%N, 1%nat)])]; try exact rG_lens; vm_compute; reflexivity. Qed.
Lemma rG_in g : In g rG -> ideal 2 0 (pfs rF) (cf g).
Proof. intros [<-|[<-|[]]]; [apply (cert0 2 rF _ [(3, [0; 0]%N, 0%nat); (2, [0; 1]%N, 1%nat)])|apply (cert0 2 rF _ [(-1, [0; 0]%N, 1%nat)])]; try exact rF_lens; vm_compute; reflexivity. Qed.
Lemma rE_bezout : FpSpec.peq 0 (padd (FpSpec.pmul [-54; 48] rE) (FpSpec.pmul [64; 18; -16] (pderiv rE))) [-282].
Proof. intros i. do 6 (destruct i as [|i]; [apply eqp_zero; vm_compute; reflexivity|]). apply eqp_zero. rewrite !pc_over by (vm_compute; lia). reflexivity. Qed.
Example C75_points_ex : rational_param 2 rF 3 rE rcs.
Proof.
  split; [lia|]. split; [reflexivity|]. split; [discriminate|]. split; [exists [-54; 48], [64; 18; -16], (-282); split; [lia|exact rE_bezout]|]. split; [reflexivity|]. split; [intros c e [X|[]]; injection X as <- <-; cbn; lia|].
  intros f. transitivity (qideal 2 (pfs rG) f).
  - split; apply qideal_sub.
    + intros g Hg. apply (qideal_unscale 2 (pfs rG) 3); [lia|]. apply qideal_of. eapply lspan_ext; [exact (rF_in g Hg)|]. intros m _; symmetry; apply cf_scale.
    + intros g Hg. apply qideal_of. exact (rG_in g Hg).
  - unfold qideal. split; intros (x & Nx & H); exists x; (split; [exact Nx|]); apply rG_gens; exact H.
Qed.
Definition rprimes : list Z := [101; 103; 107; 109; 113].
Lemma rprime p : In p rprimes -> prime p.
Proof. intros H. cbn in H. repeat (destruct H as [<-|H]; [apply small_prime; [lia|vm_compute; reflexivity]|]). contradiction. Qed.
Lemma ndiv p x : 0 < p -> x mod p <> 0 -> ~ (p | x). Proof. intros Hp H D. apply H. apply Z.mod_divide; [lia|exact D]. Qed.
Example C75_good_ex p : In p rprimes -> good_prime 2 rF 3 rE rcs p.
Proof.
  intros H. assert (ND : ~ (p | 2) /\ ~ (p | 3) /\ ~ (p | -282) /\ ~ (p | 1)) by (cbn in H; repeat (destruct H as [<-|H]; [repeat split; (apply ndiv; [lia|vm_compute; discriminate])|]); contradiction). destruct ND as (N2 & N3 & N4 & N1).
  split; [exact N2|]. split; [intros c e [X|[]]; injection X as <- <-; exact N3|]. split; [exists [-54; 48], [64; 18; -16], (-282); split; [exact N4|exact rE_bezout]|]. split.
  - intros f Hf. exists 3. split; [exact N3|]. apply rG_gens. eapply lspan_ext; [exact (rF_in f Hf)|]. intros m _; symmetry; apply cf_scale.
  - intros g Hg. exists 1. split; [exact N1|]. assert (X : ideal 2 0 (pfs rG) g) by (apply rG_gens; apply ideal_gen; exact Hg). eapply lspan_ext; [exact (ideal_incl 2 0 (pfs rG) (pfs rF) ltac:(intros y (h & Hh & ->); exact (rG_in h Hh)) g X)|]. intros m _. lia.
Qed.
(** the computation modulo these primes *)
Definition renv (p : Z) : env := {| e_k := Avx; e_sqf := ex_sqf p; e_sqpart := ex_sqpart p; e_sq := fun _ _ => 0; e_unstable := 2; e_v := fun D => repeat 5 D; e_old := fun D => repeat 0 D |}.
Definition rcfg (p : Z) : config := std_config ord2 K31 p 2.
Definition rin (p : Z) : list (list (Z * mono)) := map (imgl p 1) rF.
Definition rparam (p : Z) : list Z * list (list Z) := match modular_step (rcfg p) (renv p) 20 (rin p) with F4Model.Ok (Done (Param e c)) => (e, c) | _ => ([], []) end.
Definition rim (p : Z) : QparSpec.image := let '(e, c) := rparam p in
  {| im_p := p; im_elim := e; im_coords := map (fun x => match normalize_coord p e x with Some w => (length w, w ++ repeat 0 (length e - 1 - length w)) | None => (0%nat, []) end) c |}.
Lemma rcfg_ok p : In p rprimes -> cfg_ok (rcfg p).
Proof. intros H. apply std_config_ok; [apply ord2_ok|apply rprime; exact H|unfold in_class; cbn in H; lia|lia]. Qed.
Lemma rimages p : In p rprimes -> Forall2 (QgbSpec.image 2 (o_lt ord2) p) rF (rin p).
Proof. intros H. cbn in H. repeat (destruct H as [<-|H]; [repeat (constructor; [apply (imageb_ok ord2); [apply ord2_ok|lia|discriminate|vm_compute; reflexivity]|]); constructor|]). contradiction. Qed.
Lemma rsetting p : In p rprimes -> setting (rcfg p) (renv p) (rin p).
Proof.
  intros H. assert (SF : Forall (sorted_poly 2 (o_lt ord2) p) (rin p)). { pose proof (rimages p H) as IM. clear -IM. induction IM as [|x y l l' Q F IH]; constructor; [apply Q|assumption]. }
  constructor; [apply rcfg_ok; exact H|reflexivity|discriminate|cbn; lia|cbn in H |- *; lia| |exact SF|].
  - split; [apply ex_contract; apply rprime; exact H|]. intros D. cbn [renv e_v e_old]. split; [apply repeat_length|]. split; [intros y Hy; apply repeat_spec in Hy; subst y; cbn in H |- *; lia|apply repeat_length].
  - intros fuel G E. assert (EG : exists G0, core_f4 (rcfg p) true 20 (rin p) = F4Model.Ok G0 /\ BasisProofs.leads G0 = [[0; 2]; [1; 1]; [2; 0]]%N /\ (length (concat G0) <= 20)%nat).
    { cbn in H. repeat (destruct H as [<-|H]; [eexists; split; [vm_compute; reflexivity|]; split; [reflexivity|vm_compute; lia]|]). contradiction. }
    destruct EG as (G0 & E0 & LG & LC). assert (G = G0) as ->. { apply (C23_unique (rcfg p) (rcfg p) fuel 20 (rin p) (rin p)); [apply rcfg_ok; exact H|apply rcfg_ok; exact H|reflexivity|reflexivity|exact SF|exact SF|intros f; reflexivity|exact E|exact E0]. }
    split; [lia|]. rewrite LG. clear. intros L [ND HL]. assert (Q : (length L <= length [[0; 0]; [0; 1]; [1; 0]]%N)%nat).
    { apply NoDup_incl_length; [exact ND|]. intros m Hm. apply HL in Hm as [Lm Hs]. change (o_nv (c_o (rcfg p))) with 2%nat in Lm. destruct m as [|a [|b [|? ?]]]; try discriminate Lm.
      assert (A : ~ mdvd [0; 2]%N [a; b]) by (apply Hs; left; reflexivity). assert (B : ~ mdvd [1; 1]%N [a; b]) by (apply Hs; right; left; reflexivity). assert (C : ~ mdvd [2; 0]%N [a; b]) by (apply Hs; right; right; left; reflexivity).
      assert (D : forall u v, (u <= a)%N -> (v <= b)%N -> mdvd [u; v] [a; b]) by (intros u v Hu Hv [|[|i]]; cbn; [exact Hu|exact Hv|destruct i; lia]).
      assert (a < 2)%N by (apply N.nle_gt; intros Q; apply C, D; lia). assert (b < 2)%N by (apply N.nle_gt; intros Q; apply A, D; lia). assert (a = 0 \/ b = 0)%N by (destruct (N.eq_dec a 0); [left; assumption|]; destruct (N.eq_dec b 0); [right; assumption|]; exfalso; apply B, D; lia).
      assert (a = 0 \/ a = 1)%N as [->| ->] by lia; assert (b = 0 \/ b = 1)%N as [->| ->] by lia; cbn [In]; auto; lia. }
    cbn [length] in Q. change (o_nv (c_o (rcfg p))) with 2%nat. split; [lia|]. unfold HilbModel.i32_max; lia.
Qed.
Example C75_step_ex p : In p rprimes -> modular_step (rcfg p) (renv p) 20 (rin p) = F4Model.Ok (Done (Param (fst (rparam p)) (snd (rparam p)))).
Proof. intros H. cbn in H. repeat (destruct H as [<-|H]; [vm_compute; reflexivity|]). contradiction. Qed.
Example C75_from_run_ex p : In p rprimes -> from_run ord2 rF (rim p).
Proof.
  intros H. exists (rcfg p), (renv p), 20%nat, (rin p), (fst (rparam p)), (snd (rparam p)). split; [apply rsetting; exact H|]. split; [reflexivity|]. split; [unfold rim; destruct (rparam p); reflexivity|]. split; [replace (im_p (rim p)) with p by (unfold rim; destruct (rparam p); reflexivity); apply rimages; exact H|].
  split; [apply C75_step_ex; exact H|]. split; [unfold rim; destruct (rparam p); reflexivity|]. intros k Hk. change (o_nv ord2 - 1)%nat with 1%nat in Hk. assert (k = 0%nat) as -> by lia. cbn in H. repeat (destruct H as [<-|H]; [vm_compute; reflexivity|]). contradiction.
Qed.
(** the lifting: 2T^3 - 12T - 9 and x = (8T^2 + 9T) / (6T^2 - 12) *)
Definition rbs : list (bool * list thread) := map (fun p => (true, [ex_t (rim p)])) [103; 107; 109; 113].
Definition rS : list Z := [-9; -12; 0; 2].
Definition rAF : list (list Z * Z) := [([0; -9; -8], 1)].
Lemma rnormal : normal_coord 3 rE [0; 0; -1] 3 18 [0; -27; -24].
Proof.
  split; [lia|]. split; [cbn; lia|]. split; [discriminate|]. exists 1, [0; -3]. split; [lia|]. split; [reflexivity|]. intros i. do 6 (destruct i as [|i]; [vm_compute; reflexivity|]). rewrite !pc_over by (vm_compute; lia). reflexivity.
Qed.
Lemma prod_pos_im (L : list QparSpec.image) : (forall im, In im L -> 0 < im_p im) -> 0 < fold_right Z.mul 1 (map im_p L).
Proof. induction L as [|x L IH]; intros H; [cbn; lia|]. cbn [map fold_right]. apply Z.mul_pos_pos; [apply H; left; reflexivity|apply IH; intros y Hy; apply H; right; exact Hy]. Qed.
Example C75_lift_ex : (exists s, run rbs (init (rim 101)) = Some (Finished s) /\ s_elim s = rS /\ combine (s_coords s) (s_cfs s) = rAF) /\ represents 2 rF 3 rS rAF.
Proof.
  assert (X : match run rbs (init (rim 101)) with Some (Finished s) => s_elim s = rS /\ s_coords s = [[0; -9; -8]] /\ s_cfs s = [1] | _ => False end) by (vm_compute; repeat split; reflexivity). destruct (run rbs (init (rim 101))) as [[s| |]|] eqn:HR; try contradiction. destruct X as (E1 & E2 & E3).
  split; [exists s; split; [reflexivity|]; split; [exact E1|rewrite E2, E3; reflexivity]|].
  assert (IN : forall im, In im (rim 101 :: goods rbs) -> exists p, In p rprimes /\ im = rim p). { intros im Him. change (goods rbs) with (map rim [103; 107; 109; 113]) in Him. change (rim 101 :: map rim [103; 107; 109; 113]) with (map rim rprimes) in Him. apply in_map_iff in Him as (p & <- & Hp). exists p. auto. }
  destruct (C75_lift ord2 rF 3 rE rcs (fun _ => 18) (fun _ => [0; -27; -24]) (rim 101) rbs s) as (P & HP & K).
  - cbn. lia.
  - exact rF_sorted.
  - exact C75_points_ex.
  - intros k Hk. change (o_nv ord2 - 1)%nat with 1%nat in Hk. assert (k = 0%nat) as -> by lia. exact rnormal.
  - change (o_nv ord2 - 1)%nat with 1%nat. split; [lia|]. split; [|vm_compute; repeat constructor; cbn; intuition discriminate]. intros im Him. destruct (IN im Him) as (p & Hp & ->). clear -Hp. cbn in Hp. repeat (destruct Hp as [<-|Hp]; [match goal with |- image_ok _ _ ?x => let y := eval vm_compute in x in change x with y end; im_ok|]). contradiction.
  - intros im Him. destruct (IN im Him) as (p & Hp & ->). replace (im_p (rim p)) with p by (unfold rim; destruct (rparam p); reflexivity). split; [apply C75_good_ex; exact Hp|]. split; [|apply C75_from_run_ex; exact Hp]. intros k _. clear -Hp. cbn in Hp. repeat (destruct Hp as [<-|Hp]; [split; (apply ndiv; [lia|vm_compute; discriminate])|]). contradiction.
  - exact HR.
  - rewrite E1, E2, E3 in K. change (o_nv ord2) with 2%nat in *. cbn [combine] in K. apply K.
    + intros i Hi. assert (PP : 0 < P 1%nat). { destruct (HP 1%nat ltac:(lia)) as (U & I1 & _ & ->). apply prod_pos_im. intros im Him. destruct (IN im (I1 im Him)) as (p & Hp & ->). replace (im_p (rim p)) with p by (unfold rim; destruct (rparam p); reflexivity). cbn in Hp. lia. }
      do 4 (destruct i as [|i]; [exact PP|]). lia.
    + intros k j Hk Hj. assert (k = 0%nat) as -> by lia. assert (PP : 0 < P 0%nat). { destruct (HP 0%nat ltac:(lia)) as (U & I1 & _ & ->). apply prod_pos_im. intros im Him. destruct (IN im (I1 im Him)) as (p & Hp & ->). replace (im_p (rim p)) with p by (unfold rim; destruct (rparam p); reflexivity). cbn in Hp. lia. }
      cbn [length] in Hj. do 3 (destruct j as [|j]; [exact PP|]). lia.
Qed.
(** the boxes: three real solutions *)
Example C75_boxes_ex : exists ivs, real_roots 60 rS 4 = Some ivs /\ length ivs = 3%nat /\
  (forall i, In i ivs -> isexact i = false -> zeval rS (IZR (numer i) * powerRZ 2 (- ik i)) <> 0%R /\ zeval rS (IZR (numer i + 1) * powerRZ 2 (- ik i)) <> 0%R) /\
  exists pts, extract_roots 20 50 {| elim := rS; denom := pderiv rS; coords := rAF |} ivs 4 = Some pts /\ Forall (well_evaluated {| elim := rS; denom := pderiv rS; coords := rAF |}) pts /\
    map (map (fun b => (val_do b, k_do b, val_up b, k_up b))) pts = [[(1, 0, 47, 5); (-31, 4, -15, 3)]; [(9, 6, 45, 7); (-7, 3, -13, 4)]; [(39, 4, 21, 3); (11, 2, 89, 5)]].
Proof.
  eexists. split; [vm_compute; reflexivity|]. split; [reflexivity|]. split.
  - assert (P4 : powerRZ 2 (- (4)) = (/ 16)%R) by (change (powerRZ 2 (- (4))) with (/ (2 * (2 * (2 * (2 * 1)))))%R; lra). assert (P5 : powerRZ 2 (- (5)) = (/ 32)%R) by (change (powerRZ 2 (- (5))) with (/ (2 * (2 * (2 * (2 * (2 * 1))))))%R; lra).
    intros i [<-|[<-|[<-|[]]]] _; cbn [numer ik]; rewrite ?P4, ?P5; unfold zeval, rS; cbn [map peval]; [change (-31 + 1) with (-30)|change (-14 + 1) with (-13)|change (88 + 1) with 89]; split; intros X; lra.
  - eexists. split; [vm_compute; reflexivity|]. split; [|reflexivity]. apply Forall_cons; [right; cbn; lia|]. apply Forall_cons; [right; cbn; lia|]. apply Forall_cons; [right; cbn; lia|]. apply Forall_nil.
Qed.
