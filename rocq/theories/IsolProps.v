(** Properties C30 and C31: the bound on the positive roots, and real root isolation. *)
From Coq Require Import ZArith List Arith Bool Lia Reals Lra.
From Verif Require Import ModInvModel PolySpec PolyProofs TaylorModel TaylorProofs DescModel DescProofs RootProofs DescProps
  IsolModel IsolSpec IsolProofs IsolBisProofs IsolBoundProofs IsolSepProofs IsolTermProofs.
Import ListNotations.
Open Scope R_scope.

(** ** C30 *)
(** The bound is always found, and 2^b is strictly larger than every real root (every positive root in particular);
    from 2^b on the polynomial has the sign of its leading coefficient. *)
Theorem C30_bound u : lead_ok u ->
  exists b, bound_roots u (length u - 1) = Some b /\
    (forall x, root u x -> x < p2 b) /\
    (forall x, p2 b <= x -> 0 < IZR (last u 0%Z) * zeval u x).
Proof.
  intros Hl. assert (Hn : u <> []) by exact (proj1 Hl).
  assert (Hlen : length u = S (length u - 1)) by (destruct u; [contradiction|cbn; lia]).
  pose proof (proj1 (lead_ok_nth u (length u - 1) Hlen) Hl) as Hd.
  assert (El : last u 0%Z = nth (length u - 1) u 0%Z).
  { destruct (exists_last Hn) as (l & b & ->). rewrite last_last, app_length. cbn [length]. rewrite app_nth2 by lia.
    replace (length l + 1 - 1 - length l)%nat with 0%nat by lia. reflexivity. }
  destruct (bound_roots_ok u (length u - 1) Hlen Hd) as (b & Eb & Hb). exists b. split; [assumption|]. split.
  - intros x Hx. apply Rnot_le_lt. intros K. apply Hb in K. unfold root in Hx. rewrite Hx in K. lra.
  - intros x Hx. apply Hb in Hx. rewrite El. set (c := nth (length u - 1) u 0%Z) in *.
    replace c with (Z.sgn c * Z.abs c)%Z by (rewrite Z.mul_comm, Z.abs_sgn; reflexivity). rewrite mult_IZR.
    assert (0 < IZR (Z.abs c)) by (apply IZR_lt; lia). replace (IZR (Z.sgn c) * IZR (Z.abs c) * zeval u x) with (IZR (Z.abs c) * (IZR (Z.sgn c) * zeval u x)) by ring.
    apply Rmult_lt_0_compat; assumption.
Qed.
Print Assumptions C30_bound.

(** When every coefficient has the sign of the leading one the routine returns -1, and there is no positive root at all. *)
Lemma bound_none u lead l M : forall d, (forall a, In a u -> Z.sgn a = Z.sgn lead) -> fst (bound_loop u d lead l M true) = true.
Proof.
  induction u as [|a u IH]; intros d H; cbn [bound_loop]; [reflexivity|]. rewrite (H a (or_introl eq_refl)), Z.eqb_refl. apply IH. intros; apply H; right; assumption.
Qed.
Theorem C30_none u : lead_ok u -> (forall a, In a u -> Z.sgn a = Z.sgn (last u 0%Z)) ->
  bound_roots u (length u - 1) = Some (-1)%Z /\ forall x, 0 < x -> ~ root u x.
Proof.
  intros Hl H. assert (Hn : u <> []) by exact (proj1 Hl).
  destruct (exists_last Hn) as (l & b & ->). rewrite last_last in H. rewrite app_length. cbn [length]. replace (length l + 1 - 1)%nat with (length l) by lia. split.
  - unfold bound_roots. rewrite (getz_some (l ++ [b]) (length l)) by (rewrite app_length; cbn; lia). cbn [obind]. rewrite app_nth2, Nat.sub_diag by lia. cbn [nth].
    rewrite firstn_app, Nat.sub_diag, firstn_all. cbn [firstn]. rewrite app_nil_r. rewrite bound_none; [reflexivity|]. intros; apply H; apply in_or_app; auto.
  - intros x Hx Hr. destruct Hl as [_ Hl]. rewrite last_last in Hl.
    assert (G : forall m, (forall a, In a m -> Z.sgn a = Z.sgn b) -> m <> [] -> 0 < IZR (Z.sgn b) * zeval m x).
    { induction m as [|a m IH]; intros Hm Nm; [contradiction|]. unfold zeval. cbn [map peval]. fold (zeval m x).
      pose proof (Hm a (or_introl eq_refl)) as Ha. assert (Pa : 0 < IZR (Z.sgn b) * IZR a) by (rewrite <- mult_IZR; apply IZR_lt; destruct a, b; cbn in Ha |- *; lia).
      destruct m as [|a' m]; [unfold zeval; cbn; lra|]. assert (K : 0 < IZR (Z.sgn b) * zeval (a' :: m) x) by (apply IH; [intros; apply Hm; right; assumption|discriminate]).
      pose proof (Rmult_lt_0_compat _ _ Hx K). lra. }
    pose proof (G (l ++ [b]) H Hn) as K. unfold root in Hr. rewrite Hr in K. lra.
Qed.
Print Assumptions C30_none.

(** x^2 - 2 has all its roots below 2^2; 1 + 2 x has no positive root; the value -1 alone does not mean that there is no
    positive root: it is also the bound of 8 x - 1. *)
Example C30_ex : bound_roots [-2; 0; 1]%Z 2 = Some 2%Z /\ bound_roots [1; 2]%Z 1 = Some (-1)%Z /\ bound_roots [-1; 8]%Z 1 = Some (-1)%Z /\ root [-1; 8]%Z (/ 8).
Proof. repeat split; try reflexivity. unfold root, zeval. cbn [map peval]. lra. Qed.

(** ** C31 *)
(** Whatever the isolation returns isolates the real roots: the records are sets in increasing order, pairwise disjoint,
    each with exactly one root, and every real root is in one of them. *)
Theorem C31_sound fuel p l : lead_ok p -> isolate fuel p = Some l ->
  isolates (zeval p) (map (fun i => in_record (numer i) (ik i) (isexact i)) l).
Proof. intros Hl H. exact (proj1 (isolate_sound fuel p l Hl H)). Qed.
Print Assumptions C31_sound.

(** A record marked exact is a root; the number of records is the number of real roots. *)
Corollary C31_exact fuel p l i : lead_ok p -> isolate fuel p = Some l -> In i l -> isexact i = true -> root p (IZR (numer i) * p2 (- ik i)).
Proof.
  intros Hl H Hi He. destruct (C31_sound fuel p l Hl H) as (_ & F & _). rewrite Forall_forall in F.
  destruct (F _ (in_map _ _ _ Hi)) as (x & Hx & Rx & _). unfold in_record in Hx. rewrite He in Hx. subst x. exact Rx.
Qed.
Print Assumptions C31_exact.
Lemma choose_roots (f : R -> R) : forall l, ForallOrdPairs left_of l -> Forall (fun A => exists x, A x /\ f x = 0 /\ forall y, A y -> f y = 0 -> y = x) l ->
  exists xs, length xs = length l /\ increasing xs /\ (forall x, In x xs <-> f x = 0 /\ exists A, In A l /\ A x).
Proof.
  induction l as [|A l IH]; intros O F; [exists []; repeat split; try contradiction; intros (_ & ? & [] & _)|].
  inversion_clear O as [|? ? O1 O2]. inversion_clear F as [|? ? F1 F2]. destruct (IH O2 F2) as (xs & L & I & Hx). destruct F1 as (x & Ax & Fx & U).
  exists (x :: xs). split; [cbn; congruence|]. split.
  - destruct xs as [|y xs]; [exact Logic.I|]. split; [|exact I]. destruct (proj1 (Hx y) (or_introl eq_refl)) as (_ & B & HB & By).
    rewrite Forall_forall in O1. exact (O1 B HB x y Ax By).
  - intros y. split.
    + intros [<-|Hy]; [split; [assumption|]; exists A; split; [left; reflexivity|assumption]|]. apply Hx in Hy. destruct Hy as (Fy & B & HB & By). split; [assumption|]. exists B. split; [right|]; assumption.
    + intros (Fy & B & [<-|HB] & By); [left; symmetry; auto|right; apply Hx; eauto].
Qed.
Theorem C31_count fuel p l : lead_ok p -> isolate fuel p = Some l ->
  exists xs, length xs = length l /\ increasing xs /\ forall x, In x xs <-> root p x.
Proof.
  intros Hl H. destruct (C31_sound fuel p l Hl H) as (O & F & C). destruct (choose_roots (zeval p) _ O F) as (xs & L & I & Hx).
  rewrite map_length in L. exists xs. split; [assumption|]. split; [assumption|]. intros x. rewrite Hx. unfold root. split; [tauto|]. intros K. auto.
Qed.
Print Assumptions C31_count.

(** If an end point of a record that is not exact is a root, then that root has a record of its own, marked exact. (So
    after division by the exact roots the polynomial has opposite signs at the two ends, which the refinement needs.) *)
Theorem C31_endpoints fuel p l i z : lead_ok p -> isolate fuel p = Some l -> In i l -> isexact i = false ->
  z = record_lo i \/ z = record_hi i -> root p z -> exists j, In j l /\ isexact j = true /\ z = IZR (numer j) * p2 (- ik j).
Proof.
  intros Hl H Hi He Hz Rz. destruct (isolate_sound fuel p l Hl H) as (_ & E). destruct (E i Hi He z Hz Rz) as (j & Hj & Ej & Sj).
  exists j. split; [assumption|]. split; [assumption|]. unfold record_set, in_record in Sj. rewrite Ej in Sj. exact Sj.
Qed.
Print Assumptions C31_endpoints.

(** The isolation ends, without an out of bounds access, on every polynomial without a multiple real root, and the
    result does not depend on the fuel once there is enough. *)
Theorem C31_total p : lead_ok p -> simple_roots p -> exists l fuel, forall fuel', (fuel <= fuel')%nat -> isolate fuel' p = Some l.
Proof.
  intros Hl HS. destruct (isolate_total p Hl HS) as (fuel & H). destruct (H fuel (le_n _)) as (l & E). exists l, fuel. intros fuel' Hf. exact (isolate_mono _ _ _ _ Hf E).
Qed.
Print Assumptions C31_total.

(** Both together. *)
Corollary C31_correct p : lead_ok p -> simple_roots p ->
  exists l fuel, (forall fuel', (fuel <= fuel')%nat -> isolate fuel' p = Some l) /\
    isolates (zeval p) (map (fun i => in_record (numer i) (ik i) (isexact i)) l).
Proof.
  intros Hl HS. destruct (C31_total p Hl HS) as (l & fuel & H). exists l, fuel. split; [assumption|]. exact (C31_sound fuel p l Hl (H fuel (le_n _))).
Qed.
Print Assumptions C31_correct.

(** x^3 + 2 x^2 - x - 2 = (x+2)(x+1)(x-1): one exact record -2, then the intervals (-2,0) and (0,4). *)
Example C31_ex : isolate 20 [-2; -1; 2; 1]%Z =
  Some [{| numer := -2; ik := 0; isexact := true |}; {| numer := -2; ik := -1; isexact := false |}; {| numer := 0; ik := -2; isexact := false |}] /\
  lead_ok [-2; -1; 2; 1]%Z /\ simple_roots [-2; -1; 2; 1]%Z.
Proof.
  split; [vm_compute; reflexivity|]. split; [split; [discriminate|cbn; lia]|].
  intros x Hx. change (pder [-2; -1; 2; 1]%Z) with [-1; 4; 3]%Z. unfold root, zeval in *. cbn [map peval] in *.
  assert (E : (x + 2) * ((x + 1) * (x - 1)) = 0) by (rewrite <- Hx; ring).
  apply Rmult_integral in E. destruct E as [E|E]; [|apply Rmult_integral in E; destruct E as [E|E]].
  - replace x with (-2) by lra. intros K. lra.
  - replace x with (-1) by lra. intros K. lra.
  - replace x with 1 by lra. intros K. lra.
Qed.
Example C31_ex4 : isolate 60 [-1; 1000; -2000; 0; 1]%Z =
  Some [{| numer := -128; ik := -7; isexact := false |}; {| numer := 0; ik := 2; isexact := false |};
        {| numer := 1; ik := 2; isexact := false |}; {| numer := 32; ik := -5; isexact := false |}].
Proof. vm_compute. reflexivity. Qed.
