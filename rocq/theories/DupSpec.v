(** Memory as a list of arrays, and what it means that two sets of pointers hold the same data in different arrays. *)
From Coq Require Import ZArith Arith List.
Import ListNotations.

(** an address is a position in the heap; nothing is freed *)
Definition heap := list (list Z).
Definition content (h : heap) (a : nat) : option (list Z) := nth_error h a.
(** [l'] holds at its addresses in [h'] what [l] holds in [h] *)
Definition same_data (h : heap) (l : list nat) (h' : heap) (l' : list nat) : Prop := map (content h) l = map (content h') l'.
(** all the addresses are in the heap *)
Definition allocated (h : heap) (l : list nat) : Prop := forall a, In a l -> a < length h.
(** [l] was allocated after [h] *)
Definition fresh (h : heap) (l : list nat) : Prop := forall a, In a l -> length h <= a.
