(** Concrete cases for C82. *)
From Coq Require Import ZArith Arith List Bool Lia Sorted.
From Verif Require Import ModInvModel LinSpec LaSpec LaModel QlaSpec QlaModel QlaProofs QlaProps.
Import ListNotations.
Open Scope Z_scope.

Ltac inl := intros t Ht; repeat (destruct Ht as [<-|Ht]); [..|destruct Ht]; cbn [fst snd]; lia.
Ltac nd := repeat (constructor; [cbn; intuition (try discriminate; lia)|]); constructor.
(** two known rows, three rows to be reduced, five columns *)
Definition e_rr : nat -> option srow := fun i => match i with
  | O => Some [(0%nat, 2); (1%nat, 3); (3%nat, 7)] | S O => Some [(1%nat, 6); (2%nat, -4); (4%nat, 10)] | _ => None end.
Definition e_tr : list srow := [[(0%nat, 3); (2%nat, 1); (4%nat, 9)]; [(0%nat, 6); (1%nat, 1); (3%nat, 4); (4%nat, 2)]; [(1%nat, 200); (2%nat, 17); (4%nat, 1)]].
Definition e_s1 : list nat := repeat 0%nat 60 ++ repeat 1%nat 60 ++ repeat 2%nat 60.
Definition e_s2 : list nat := concat (repeat [2%nat; 1%nat; 0%nat] 60).
Example C82_matrix_ex : qmatrix 2 5 e_rr e_tr.
Proof.
  split; [lia|]. split; [|split].
  - intros [|[|c]]; cbn; split; try lia; try congruence.
  - intros [|[|c]] r; cbn; intros [= <-]; (split; [cbn [map fst]; nd|split; [inl|]]); (eexists _, _; split; [reflexivity|split; [lia|inl]]).
  - intros r Hr. repeat (destruct Hr as [<-|Hr]); [..|destruct Hr]; (split; [cbn [map fst]; nd|split; [inl|]]); (eexists _, _; split; [reflexivity|inl]).
Qed.
Example C82_steps_ex : forall t, (t < length e_tr)%nat -> ((5 + 2) * (5 + 3) <= count_occ Nat.eq_dec e_s1 t)%nat /\ ((5 + 2) * (5 + 3) <= count_occ Nat.eq_dec e_s2 t)%nat.
Proof. intros [|[|[|t]]] Ht; cbn [length e_tr] in Ht; [..|lia]; vm_compute; lia. Qed.
Example C82_echelon_ex : qechelon 2 5 e_rr e_tr e_s1 = Some [[(4%nat, 1)]; [(3%nat, 1)]; [(2%nat, 1)]] /\ qechelon 2 5 e_rr e_tr e_s2 = qechelon 2 5 e_rr e_tr e_s1 /\
  qechelon_ab 2 5 e_rr e_tr e_s2 = qechelon 2 5 e_rr e_tr e_s1.
Proof. vm_compute. repeat split. Qed.
(** fewer rows: the result is not trivial and its rows are primitive *)
Example C82_echelon_two_ex : qechelon 2 5 e_rr (firstn 2 e_tr) e_s1 = qechelon_ab 2 5 e_rr (firstn 2 e_tr) e_s2 /\
  exists r1 r2, qechelon 2 5 e_rr (firstn 2 e_tr) e_s1 = Some [r1; r2] /\ (1 < length r1)%nat /\ zprim r1.
Proof.
  split; [vm_compute; reflexivity|]. eexists _, _. split; [vm_compute; reflexivity|]. split; [cbn; lia|]. split; [|eexists _, _, _; split; [reflexivity|lia]].
  intros q Hq. pose proof (Hq _ (or_introl eq_refl)) as H1. pose proof (Hq _ (or_intror (or_introl eq_refl))) as H2. cbn [snd] in *.
  assert (H : (q | 1)). { eapply Z.divide_trans; [apply Z.gcd_greatest; [exact H1|exact H2]|]. exists 1. vm_compute. reflexivity. }
  apply Z.divide_1_r. assumption.
Qed.
(** variant 1 needs a known row: the index nru - 1 is used *)
Example C82_ab_first_none_ex : qechelon_ab 0 1 (fun _ => None) [[(0%nat, 2)]] e_s1 = None /\ qechelon 0 1 (fun _ => None) [[(0%nat, 2)]] (repeat 0%nat 12) = Some [[(0%nat, 1)]].
Proof. vm_compute. split; reflexivity. Qed.

(** a basis 2x + y, y - 2 on the columns x, y, 1: interreduced, but the row 2x + 2 keeps its content *)
Definition e_st : nat -> list Z := fun i => match i with O => [2; 1] | S O => [1; -2] | _ => [] end.
Definition e_rows : list (nat * list nat) := [(0%nat, [0%nat; 1%nat]); (1%nat, [1%nat; 2%nat])].
Example C82_interreduce_ex : basis_rows 3 e_rows e_st /\ NoDup (map fst e_rows) /\ ir_basis 3 e_rows e_st = Some [[(1%nat, 1); (2%nat, -2)]; [(0%nat, 2); (2%nat, 2)]].
Proof.
  split; [|split; [cbn [map fst e_rows]; nd|vm_compute; reflexivity]]. split; [|cbn [map snd e_rows hd]; nd].
  intros i cols Hr. repeat (destruct Hr as [[= <- <-]|Hr]); [..|destruct Hr]; (split; [reflexivity|]); eexists; (split; [cbn [map fst combine e_st]; nd|split; [cbn [combine e_st]; inl|]]); cbn [combine e_st]; (eexists _, _; split; [reflexivity|split; [lia|inl]]).
Qed.
(** The basis y^2 - 2, x^3 + x y^2 for the graded reverse lexicographical order with x > y; columns x^3, x y^2, y^2, x, 1. The tail
    x y^2 is reduced with x (y^2 - 2), a row with the array of y^2 - 2. Nothing is returned, although the reduced basis is
    y^2 - 2, x^3 + 2 x. With a private copy of the array the rows are right. *)
Definition e_st2 : nat -> list Z := fun i => match i with O => [1; -2] | S O => [1; 1] | S (S O) => [1; -2] | _ => [] end.
Example C82_shared_ex : ir_basis 5 [(0%nat, [2%nat; 4%nat]); (1%nat, [0%nat; 1%nat]); (0%nat, [1%nat; 3%nat])] e_st2 = None /\
  ir_rows 5 [(0%nat, [2%nat; 4%nat]); (1%nat, [0%nat; 1%nat]); (0%nat, [1%nat; 3%nat])] e_st2 = Some [Some [(2%nat, 1); (4%nat, -2)]; None; Some [(0%nat, 1); (1%nat, 1)]] /\
  ir_basis 5 [(0%nat, [2%nat; 4%nat]); (1%nat, [0%nat; 1%nat]); (2%nat, [1%nat; 3%nat])] e_st2 = Some [[(2%nat, 1); (4%nat, -2)]; [(1%nat, 1); (3%nat, -2)]; [(0%nat, 1); (3%nat, 2)]].
Proof. vm_compute. repeat split. Qed.
