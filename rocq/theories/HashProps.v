(** Properties C13 and C14: the monomial hash table. *)
From Coq Require Import ZArith NArith Arith List Bool Lia.
From Verif Require Import ModInvModel MonoSpec MonoSpecProofs MonoModel MonoProofs MonoDivProofs HashModel HashProofs.
Import ListNotations.
Open Scope N_scope.

(** *** C13: interning

    A history is a list of operations on a table of 2^b slots (b = the number of bits asked for) whose hash multipliers
    rn are arbitrary. [run] gives None as soon as a vector would be written past the end of the table. *)

(** The table refines a plain list of distinct vectors: whatever the multipliers, the answers are those of the list
    ([spec_insert]: position of the vector if present, else append it). *)
Theorem C13_refines : forall evl rn b ops t outs,
  (0 < evl)%nat -> length rn = evl -> 1 <= b <= 32 -> Forall (op_ok evl) ops -> N.of_nat (nvecs ops) < 2 ^ 32 ->
  run (init_tab evl rn b) ops = Some (t, outs) ->
  tl (hb_ev t) = fst (spec_run [] ops) /\ outs = snd (spec_run [] ops).
Proof.
  intros evl rn b ops t outs H1 H2 Hb HF Hn Hr.
  destruct (run_refines ops (init_tab evl rn b) t outs (init_ok evl rn b H1 H2 Hb) HF) as (_ & C & O & _); [|exact Hr|auto].
  unfold eld. cbn [init_tab hb_ev length]. change (N.of_nat 1) with 1. lia.
Qed.
Print Assumptions C13_refines.

(** Histories that reserve room before inserting polynomials never fail: the probe loop finds a slot each time, even
    though at most hsz slots are looked at. *)
Theorem C13_never_fails : forall evl rn b ops,
  (0 < evl)%nat -> length rn = evl -> 1 <= b <= 32 -> Forall (op_ok evl) ops -> forallb reserved ops = true ->
  N.of_nat (nvecs ops) < 2 ^ 32 -> exists t outs, run (init_tab evl rn b) ops = Some (t, outs).
Proof.
  intros evl rn b ops H1 H2 Hb HF Hr Hn. apply run_total; auto using init_ok.
  unfold eld. cbn [init_tab hb_ev length]. change (N.of_nat 1) with 1. lia.
Qed.
Print Assumptions C13_never_fails.

(** Index handed out for each inserted vector, in order. *)
Definition answers (ops : list op) (outs : list (list N)) : list (list N * N) := combine (flat_map op_vecs ops) (concat outs).

(** Without a reset, at the end of the history (any number of enlargements in between) every index handed out still
    holds its vector, all stored vectors are different, and two answers agree exactly when the vectors do. *)
Theorem C13_interning : forall evl rn b ops t outs,
  (0 < evl)%nat -> length rn = evl -> 1 <= b <= 32 -> Forall (op_ok evl) ops -> N.of_nat (nvecs ops) < 2 ^ 32 ->
  forallb (fun o => negb (resets o)) ops = true ->
  run (init_tab evl rn b) ops = Some (t, outs) ->
  length (concat outs) = nvecs ops /\
  (forall a i, In (a, i) (answers ops outs) -> nth_error (hb_ev t) (N.to_nat i) = Some a /\ i <> 0) /\
  (forall a i a' i', In (a, i) (answers ops outs) -> In (a', i') (answers ops outs) -> (i = i' <-> a = a')).
Proof.
  intros evl rn b ops t outs H1 H2 Hb HF Hn Hnr Hr.
  destruct (C13_refines evl rn b ops t outs H1 H2 Hb HF Hn Hr) as (C & O).
  destruct (spec_run_live ops [] (NoDup_nil _) Hnr) as (ND & _ & L & M). rewrite <- C, <- O in *.
  assert (Lv : forall a i, In (a, i) (answers ops outs) -> nth_error (hb_ev t) (N.to_nat i) = Some a /\ i <> 0).
  { intros a i Hin. rewrite Forall_forall in L. destruct (L _ Hin) as (P & Q). cbn [fst snd] in *.
    rewrite nth_error_tl in Q by assumption. split; [assumption|lia]. }
  split; [|split; [exact Lv|]].
  - assert (HL : forall (A B : Type) (f : A -> list B) (l : list A) (o : list (list N)), map (@length _) o = map (fun x => length (f x)) l -> length (concat o) = length (flat_map f l)).
    { clear. induction l as [|x l IH]; intros [|y o] H; try discriminate; [reflexivity|]. cbn in *. injection H as H H'. rewrite !app_length. rewrite (IH o H'). lia. }
    apply HL. exact M.
  - intros a i a' i' Hin Hin'. destruct (Lv a i Hin) as (Q & P). destruct (Lv a' i' Hin') as (Q' & P'). split.
    + intros <-. congruence.
    + intros <-. apply N2Nat.inj. rewrite <- (nth_error_tl (hb_ev t)) in Q, Q' by lia.
      pose proof (proj1 (NoDup_nth_error _) ND (N.to_nat i - 1)%nat (N.to_nat i' - 1)%nat) as HH.
      assert (N.to_nat i - 1 = N.to_nat i' - 1)%nat; [|lia]. apply HH; [|congruence]. apply nth_error_Some. rewrite Q. discriminate.
Qed.
Print Assumptions C13_interning.

Definition demo_ops : list op :=
  [InsertPoly [[3;1;2];[2;2;0];[3;1;2]]; Enlarge; InsertPoly [[2;2;0];[1;0;1];[5;5;0];[3;1;2]]; Insert [1;0;1]].
(** All multipliers 0: every vector has the same hash value and everything collides. *)
Example C13_demo : exists t, run (init_tab 3 [0;0;0] 2) demo_ops = Some (t, [[1;2;1];[];[2;3;4;1];[3]]) /\
  forallb (fun o => negb (resets o)) demo_ops = true /\ hb_hsz t = 32.
Proof. eexists. split; [vm_compute; reflexivity|]. split; reflexivity. Qed.
Example C13_demo_reset : exists t, run (init_tab 3 [7;11;13] 3) [InsertPoly [[3;1;2];[2;2;0]]; Clean; InsertPoly [[2;2;0]]; Reinit 20; InsertPoly [[9;9;0];[2;2;0]]]
  = Some (t, [[1;2];[];[1];[];[1;2]]).
Proof. eexists. vm_compute. reflexivity. Qed.

(** With exactly 2^32 slots, re-insertion after a table reset (the function that rebuilds the table from the old
    exponents) does not look at any slot: the size is held in 32 bits and becomes 0. The same vector inserted twice gets
    two different indices. *)
Theorem C13_reinsert_largest_table_refuted : exists rn a t1 i1 t2 i2,
  reinsert (init_tab 3 rn 32) a = Some (t1, i1) /\ reinsert t1 a = Some (t2, i2) /\ i1 <> i2.
Proof.
  exists [3;5;7], [2;1;1]. eexists. eexists. eexists. eexists. split; [vm_compute; reflexivity|]. split; [vm_compute; reflexivity|]. discriminate.
Qed.
Print Assumptions C13_reinsert_largest_table_refuted.

(** For smaller tables it agrees with plain insertion. *)
Theorem C13_reinsert : forall t a, hb_hsz t < 2 ^ 32 -> reinsert t a = insert t a.
Proof. intros t a H. unfold reinsert, insert. rewrite N.mod_small by exact H. reflexivity. Qed.
Print Assumptions C13_reinsert.

(** *** C14: products *)
Theorem C14_product : forall t1 t2 ea h1 b eb,
  inv t1 -> hb_evl t2 = hb_evl t1 -> hb_rn t2 = hb_rn t1 -> length ea = hb_evl t1 -> hash t1 ea = Some h1 ->
  (1 <= b)%nat -> nth_error (hb_ev t1) b = Some eb -> (forall i, ex ea i + ex eb i < 2 ^ 16) ->
  insert_multiplied_fast t1 t2 h1 ea b = insert_multiplied t1 t2 ea b.
Proof.
  intros t1 t2 ea h1 b eb HI Hv Hr Ha Hh Hb He Hs.
  destruct (i_val t1 HI b eb Hb He) as (vb & Hvb & Hhb).
  unfold insert_multiplied_fast, insert_multiplied. unfold rd. rewrite He, Hvb. cbn [obind].
  destruct (eld t2 <? hb_esz t2); [|reflexivity]. apply check_insert_hash.
  assert (Hle : length eb = hb_evl t1). { pose proof (i_ok t1 HI) as HF. rewrite Forall_forall in HF. apply HF. eapply nth_error_In; eassumption. }
  unfold hash in *. rewrite Hv, Hr. rewrite hash_loop_ok in *; rewrite ?mul_ev_length, ?(i_rn t1 HI); try lia.
  injection Hh as <-. injection Hhb as <-. rewrite <- N.add_mod by discriminate. f_equal. f_equal.
  rewrite (wsum_add (hb_evl t1) 0 (hb_rn t1) ea eb); [lia|].
  intros i _. rewrite ex_mul_ev by congruence. unfold add16, exp16. apply N.mod_small. apply Hs.
Qed.
Print Assumptions C14_product.

(** and the entry it finds or creates holds the product *)
Theorem C14_entry : forall t1 t2 ea h1 b eb,
  inv t1 -> inv t2 -> hb_evl t2 = hb_evl t1 -> hb_rn t2 = hb_rn t1 -> length ea = hb_evl t1 -> hash t1 ea = Some h1 ->
  (1 <= b)%nat -> nth_error (hb_ev t1) b = Some eb -> (forall i, ex ea i + ex eb i < 2 ^ 16) ->
  eld t2 < hb_esz t2 -> eld t2 < 2 ^ 32 ->
  exists t' i e, insert_multiplied_fast t1 t2 h1 ea b = Some (t', i) /\ nth_error (hb_ev t') (N.to_nat i) = Some e /\
  length e = hb_evl t1 /\ (forall j, ex e j = ex ea j + ex eb j) /\
  (forall i', (1 <= i')%nat -> nth_error (hb_ev t2) i' = Some e -> i = N.of_nat i').
Proof.
  intros t1 t2 ea h1 b eb HI HI2 Hv Hr Ha Hh Hb He Hs Hc1 Hc2.
  rewrite (C14_product t1 t2 ea h1 b eb) by assumption. unfold insert_multiplied, rd. rewrite He. cbn [obind].
  destruct (N.ltb_spec (eld t2) (hb_esz t2)) as [_|L]; [|lia].
  assert (Hle : length eb = hb_evl t1). { pose proof (i_ok t1 HI) as HF. rewrite Forall_forall in HF. apply HF. eapply nth_error_In; eassumption. }
  assert (Hlm : length (mul_ev ea eb) = hb_evl t2) by (rewrite mul_ev_length; congruence).
  destruct (insert_ok t2 (mul_ev ea eb) HI2 Hlm Hc1 Hc2) as (t' & E & I' & C & _). rewrite E.
  destruct (spec_insert_ok (contents t2) (mul_ev ea eb) (i_nd t2 HI2)) as (_ & _ & P & Q).
  exists t', (snd (spec_insert (contents t2) (mul_ev ea eb))), (mul_ev ea eb). split; [reflexivity|]. split.
  - rewrite <- C in Q. unfold contents in Q. rewrite nth_error_tl in Q by exact P. exact Q.
  - split; [congruence|]. split.
    + intros j. rewrite ex_mul_ev by congruence. unfold add16, exp16. apply N.mod_small. apply Hs.
    + intros i' Hi' Hn. unfold spec_insert, contents. rewrite (index_of_nth _ _ (i' - 1)%nat (i_nd t2 HI2)); [cbn; f_equal; lia|].
      rewrite nth_error_tl by exact Hi'. exact Hn.
Qed.
Print Assumptions C14_entry.

(** lcms of critical pairs move from the update table to the basis table with their stored hash value *)
Theorem C14_lcm_hash : forall bht uht l e,
  inv uht -> hb_evl bht = hb_evl uht -> hb_rn bht = hb_rn uht -> (1 <= l)%nat -> nth_error (hb_ev uht) l = Some e ->
  eld bht < hb_esz bht -> insert_plcm bht uht l = insert bht e.
Proof.
  intros bht uht l e HI Hv Hr Hl He Hc. destruct (i_val uht HI l e Hl He) as (v & Hvv & Hh).
  unfold insert_plcm, rd. rewrite He, Hvv. cbn [obind]. destruct (N.ltb_spec (eld bht) (hb_esz bht)); [|lia].
  unfold insert. rewrite (hash_same bht uht e Hv Hr), Hh. reflexivity.
Qed.
Print Assumptions C14_lcm_hash.

Definition c14_t1 : tab := Eval vm_compute in match insert (init_tab 3 [7;11;4294967295] 3) [3;1;2] with Some r => fst r | None => init_tab 3 [] 3 end.
Example C14_demo : insert_multiplied_fast c14_t1 (init_tab 3 [7;11;4294967295] 2) 30 [3;1;2] 1
  = insert_multiplied c14_t1 (init_tab 3 [7;11;4294967295] 2) [3;1;2] 1 /\
  exists t, insert_multiplied c14_t1 (init_tab 3 [7;11;4294967295] 2) [3;1;2] 1 = Some (t, 1) /\ nth_error (hb_ev t) 1 = Some [6;2;4].
Proof. split; [vm_compute; reflexivity|]. eexists. vm_compute. split; reflexivity. Qed.

(** Beyond 16 bits the shortcut and the direct insertion differ: the vector [0;1] is in the table, the wrapped product is
    [0;1] as well, and the shortcut does not find it. *)
Theorem C14_overflow_refuted : exists t ea h1 b t' i t'' i', inv t /\ hash t ea = Some h1 /\
  insert_multiplied_fast t t h1 ea b = Some (t', i) /\ insert_multiplied t t ea b = Some (t'', i') /\ i <> i'.
Proof.
  assert (I0 : inv (init_tab 2 [1;1] 3)) by (apply init_ok; [lia|reflexivity|lia]).
  destruct (insert_ok (init_tab 2 [1;1] 3) [1;1] I0) as (t1 & E1 & I1 & C1 & V1 & R1 & S1 & S2); [reflexivity|reflexivity|reflexivity|].
  assert (EL : eld t1 = 2) by (rewrite (eld_contents t1 I1), C1; reflexivity).
  destruct (insert_ok t1 [0;1] I1) as (t2 & E2 & I2 & _); [rewrite V1; reflexivity|rewrite EL, S1; reflexivity|rewrite EL; reflexivity|].
  assert (F1 : insert (init_tab 2 [1;1] 3) [1;1] = Some (t1, 1)) by (rewrite E1; reflexivity). vm_compute in F1. injection F1 as F1. subst t1.
  assert (F2 := E2). vm_compute in F2. injection F2 as F2. subst t2.
  eexists. exists [65535;0]. exists 65535, 1%nat. eexists. eexists. eexists. eexists. split; [exact I2|].
  split; [vm_compute; reflexivity|]. split; [vm_compute; reflexivity|]. split; [vm_compute; reflexivity|]. discriminate.
Qed.
Print Assumptions C14_overflow_refuted.
