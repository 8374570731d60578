(** The result of the F4 computation does not change when it is given more fuel. *)
From Coq Require Import ZArith NArith Arith List Bool Lia.
From Verif Require Import ModInvModel MonoSpec MonoModel GbSpec LaModel F4Model NfModel.
Import ListNotations.
Open Scope nat_scope.

Definition le_res {A} (a b : res A) : Prop := a = More \/ b = a.
Lemma le_refl {A} (a : res A) : le_res a a.
Proof. right. reflexivity. Qed.
Lemma le_bind {A B} (a a' : res A) (f f' : A -> res B) : le_res a a' -> (forall x, le_res (f x) (f' x)) -> le_res (rbind a f) (rbind a' f').
Proof. intros [->| ->] H; [left; reflexivity|]. destruct a; cbn [rbind]; [apply H|apply le_refl..]. Qed.
Lemma symb_le els lmps skip oes : forall f f' i sht leads rr, f <= f' -> le_res (symb f els lmps skip oes i sht leads rr) (symb f' els lmps skip oes i sht leads rr).
Proof.
  induction f as [|f IH]; intros f' i sht leads rr L.
  - destruct f' as [|f']; [apply le_refl|]. cbn [symb]. destruct (nth_error sht i); [left; reflexivity|apply le_refl].
  - destruct f' as [|f']; [lia|]. cbn [symb]. destruct (nth_error sht i); [|apply le_refl]. destruct (_ && _); [apply IH; lia|]. apply le_bind; [apply le_refl|]. intros [g|]; [|apply IH; lia]. apply le_bind; [apply le_refl|]. intros r. apply IH. lia.
Qed.
Lemma round_le c f f' r b ps : f <= f' -> le_res (round c f r b ps) (round c f' r b ps).
Proof.
  intros L. unfold round. apply le_bind; [|intros [[? ?] [? ?]]; apply le_refl]. unfold round_matrix. apply le_bind; [apply le_refl|]. intros rows. apply le_bind; [apply le_refl|]. intros rr0. apply le_bind; [apply symb_le; exact L|]. intros [[? ?] ?]. apply le_refl.
Qed.
Lemma f4_loop_le c : forall f f' r b ps, f <= f' -> le_res (f4_loop c f r b ps) (f4_loop c f' r b ps).
Proof.
  induction f as [|f IH]; intros f' r b ps L.
  - destruct f' as [|f']; [apply le_refl|]. cbn [f4_loop]. destruct (done b ps); [apply le_refl|left; reflexivity].
  - destruct f' as [|f']; [lia|]. cbn [f4_loop]. destruct (done b ps); [apply le_refl|]. apply le_bind; [apply round_le; exact L|]. intros [b' ps']. apply IH. lia.
Qed.
Lemma core_f4_le c red f f' F : f <= f' -> le_res (core_f4 c red f F) (core_f4 c red f' F).
Proof.
  intros L. unfold core_f4. apply le_bind; [apply le_refl|]. intros F'. apply le_bind; [apply le_refl|]. intros [b ps]. apply le_bind; [apply f4_loop_le; exact L|]. intros b'. destruct red; [|apply le_refl].
  unfold reduce_final. apply le_bind; [apply le_refl|]. intros tr. apply le_bind; [apply symb_le; exact L|]. intros [[? ?] ?]. apply le_refl.
Qed.
Lemma basis_nf_le c f f' G tbr : f <= f' -> le_res (basis_nf c f G tbr) (basis_nf c f' G tbr).
Proof.
  intros L. unfold basis_nf, core_nf. apply le_bind; [apply le_refl|]. intros _. apply le_bind; [apply symb_le; exact L|]. intros [[? ?] ?]. apply le_refl.
Qed.
