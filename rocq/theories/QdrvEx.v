(** Case for C81: 2/3 u v - 4/3 u - 1, 1/2 u^2 - 3/2 v with a restart that exchanges the variables: all hypotheses hold, and the boxes that are written. *)
From Coq Require Import ZArith NArith Arith String List Bool Lia Znumtheory Reals Lra.
From Verif Require Import MonoSpec MonoModel MonoCmpProofs ModInvModel LinSpec FpSpec GbSpec F4Model InputSpec InputModel InputProofs ImportModel ImportProps DrvModel DrvCase QdrvModel QdrvProofs QdrvProps QgbSpec RurSpec RexProps GbProofs GbIdeal RurEx PolySpec IsolModel RefineModel BoxModel BoxProps.
Import ListNotations.
Open Scope Z_scope.
Notation length := List.length.

Lemma qdrv_std : qdrv_ok drv_o drv_sort.
Proof.
  split.
  - intros n Hn. split; [unfold o_ok; cbn; lia|]. cbn. lia.
  - intros n l Hn Hl. apply drv_sort_ok; assumption.
Qed.
Ltac terms := repeat (apply Forall_cons; [unfold qterm_ok; cbn [fst snd]; split; [lia|]; split; [reflexivity|]; repeat (apply Forall_cons; [lia|]); apply Forall_nil|]); apply Forall_nil.
Definition q_names := ["u"%string; "v"%string].
Definition q_s : isys := [[((2, 3), [1; 1]); ((-4, 3), [1; 0]); ((-1, 1), [0; 0])]; [((1, 2), [2; 0]); ((-3, 2), [0; 1])]].
Definition q_g : gens := mkG 2 q_names [3; 2]%nat [1; 1; 1; 0; 0; 0; 2; 0; 0; 1] [(2, 3); (-4, 3); (-1, 1); (1, 2); (-3, 2)] 0 (-1) 0 false [].
Example C81_input_ex : qdrv_ok drv_o drv_sort /\ (0 < nvars q_g)%nat /\ fresh q_g /\ field_char q_g = 0 /\ rep q_g q_names q_s /\ qsys_ok (nvars q_g) q_s /\
  exists g, attempts 2 [Staircase] q_g [] = Some (true, g) /\ q_input drv_sort g = Some (1, rF) /\ nvars g = 2%nat.
Proof.
  split; [exact qdrv_std|]. split; [cbn; lia|]. split; [repeat split|]. split; [reflexivity|]. split.
  - repeat split. intros p [<-|[<-|[]]] t Ht; cbn in Ht; repeat (destruct Ht as [<-|Ht]; [reflexivity|]); contradiction.
  - split.
    + split; [discriminate|]. repeat (apply Forall_cons; [|]); try apply Forall_nil; (split; [discriminate|]); split.
      * terms.
      * cbn. repeat constructor; cbn; intuition discriminate.
      * terms.
      * cbn. repeat constructor; cbn; intuition discriminate.
    + eexists. split; [vm_compute; reflexivity|]. split; vm_compute; reflexivity.
Qed.
Example C81_boxes_ex : exists g ivs pts out, attempts 2 [Staircase] q_g [] = Some (true, g) /\ q_input drv_sort g = Some (1, rF) /\ represents (nvars g) rF 3 rS rAF /\ real_roots 60 rS 4 = Some ivs /\
  (forall i, In i ivs -> isexact i = false -> zeval rS (IZR (numer i) * powerRZ 2 (- ik i)) <> 0%R /\ zeval rS (IZR (numer i + 1) * powerRZ 2 (- ik i)) <> 0%R) /\
  extract_roots 20 50 {| elim := rS; denom := pderiv rS; coords := rAF |} ivs 4 = Some pts /\ report_all g pts = Some out /\
  map (map (fun b => (val_do b, k_do b, val_up b, k_up b))) out = [[(-31, 4, -15, 3); (1, 0, 47, 5)]; [(-7, 3, -13, 4); (9, 6, 45, 7)]; [(11, 2, 89, 5); (39, 4, 21, 3)]].
Proof.
  destruct C75_boxes_ex as (ivs & E1 & _ & E2 & pts & E3 & _ & E4). eexists _, ivs, pts, _. split; [vm_compute; reflexivity|]. split; [vm_compute; reflexivity|]. split; [exact (proj2 C75_lift_ex)|]. split; [exact E1|]. split; [exact E2|]. split; [exact E3|].
  assert (E1' := E1). vm_compute in E1'. injection E1' as <-. assert (E3' := E3). vm_compute in E3'. injection E3' as <-. split; vm_compute; reflexivity.
Qed.
(** Without solutions: u - 1/2, u - 1/3 *)
Definition q_s1 : isys := [[((1, 1), [1]); ((-1, 2), [0])]; [((1, 1), [1]); ((-1, 3), [0])]].
Definition q_g1 : gens := mkG 1 ["u"%string] [2; 2]%nat [1; 0; 1; 0] [(1, 1); (-1, 2); (1, 1); (-1, 3)] 0 (-1) 0 false [].
Example C81_no_solution_ex : (0 < nvars q_g1)%nat /\ fresh q_g1 /\ field_char q_g1 = 0 /\ rep q_g1 ["u"%string] q_s1 /\ qsys_ok (nvars q_g1) q_s1 /\ attempts 2 [] q_g1 [] = Some (true, q_g1) /\
  exists F, q_input drv_sort q_g1 = Some (1, F) /\ qunit 1 F.
Proof.
  split; [cbn; lia|]. split; [repeat split|]. split; [reflexivity|]. split; [|split; [|split; [reflexivity|]]].
  - repeat split. intros p [<-|[<-|[]]] t Ht; cbn in Ht; repeat (destruct Ht as [<-|Ht]; [reflexivity|]); contradiction.
  - split; [discriminate|]. repeat (apply Forall_cons; [|]); try apply Forall_nil; (split; [discriminate|]); (split; [terms|]); cbn; repeat constructor; cbn; intuition discriminate.
  - exists [[(2, [1%N]); (-1, [0%N])]; [(3, [1%N]); (-1, [0%N])]]. split; [vm_compute; reflexivity|]. exists 1. split; [lia|].
    apply (lspan_ext _ _ _ (cf [(1, [0%N])])); [|intros m _; rewrite Z.mul_1_l; reflexivity].
    apply (cert0 1 _ _ [(-3, [0%N], 0%nat); (2, [0%N], 1%nat)]); [|vm_compute; reflexivity]. intros g [<-|[<-|[]]] t Ht; cbn in Ht; repeat (destruct Ht as [<-|Ht]; [reflexivity|]); contradiction.
Qed.
