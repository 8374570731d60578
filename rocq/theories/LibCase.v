(** Cases for C79: calls for which all hypotheses hold; a call with a block order that leaves an array; a call with the zero ideal. *)
From Coq Require Import ZArith NArith Arith List Bool Lia Sorted Permutation Znumtheory.
From Verif Require Import ModInvModel LinSpec MonoSpec MonoModel MonoProofs MonoCmpProofs GbSpec F4Model RoundProofs F4Props LaModel LaProps StepProofs StepProps ElimProps.
From Verif Require Import UpdProps InputModel ImportModel ImportProps DrvCase NfModel LibSpec LibModel LibProofs LibProps.
Import ListNotations.
Open Scope Z_scope.

(** a sorting routine that calls the comparator *)
Definition o_sort (o : ordering) (l : list mono) : list nat := fold_right (pos_ins o l) [] (seq 0 (length l)).
Section Sort.
Variables (o : ordering) (l : list mono).
Hypothesis OK : o_ok o.
Hypothesis NL : (o_nev o <> 0 \/ o_mo o <> 1)%nat.
Hypothesis Hl : Forall (fun m => length m = o_nv o) l.
Let le (a b : nat) := gens_le o (nth a l []) (nth b l []).
Let len a : (a < length l)%nat -> length (nth a l []) = o_nv o.
Proof. intros H. rewrite Forall_forall in Hl. apply Hl. apply nth_In. exact H. Qed.
Lemma pos_cmp a b : length a = o_nv o -> length b = o_nv o -> exists c, initial_gens_cmp o (lay (o_nev o) a) (lay (o_nev o) b) = Some (- c) /\ cmp_spec (o_lt o) a b c.
Proof.
  intros La Lb. destruct (variants_ok o a b OK La Lb) as (c & H1 & _ & _ & H4). destruct (monomial_cmp_ev_ok o a b OK La Lb) as (c' & H1' & SP). rewrite H1 in H1'. injection H1' as <-. exists c. split; [|exact SP]. rewrite H4. destruct (Nat.eqb_spec (o_nev o) 0), (Nat.eqb_spec (o_mo o) 1); cbn; try reflexivity. exfalso. lia.
Qed.
Lemma le_iff a b : length a = o_nv o -> length b = o_nv o -> (gens_le o a b <-> a = b \/ o_lt o b a).
Proof.
  intros La Lb. destruct (pos_cmp a b La Lb) as (c & E & S1 & S2 & S3). unfold gens_le. rewrite E. split.
  - intros (c1 & E1 & Hc). injection E1 as <-. destruct (Z.eq_dec c 0) as [Z0|Z0]; [left; now apply S2|right; apply S3; lia].
  - intros H. exists (- c). split; [reflexivity|]. destruct H as [H|H]; [apply S2 in H; lia|apply S3 in H; lia].
Qed.
Lemma le_trans a b c : (a < length l)%nat -> (b < length l)%nat -> (c < length l)%nat -> le a b -> le b c -> le a c.
Proof.
  intros A B C. unfold le. rewrite !le_iff by auto. intros [->|H1] [E|H2]; auto; [rewrite <- E; auto|]. right. apply (mo_trans (o_nv o) _ (o_lt_order o) _ (nth b l [])); try (apply len; assumption); assumption.
Qed.
Lemma pos_le_ok a b : (a < length l)%nat -> (b < length l)%nat -> if pos_le o l a b then le a b else le b a.
Proof.
  intros A B. destruct (pos_cmp (nth a l []) (nth b l []) (len a A) (len b B)) as (c & E & S1 & S2 & S3). unfold pos_le. rewrite E. destruct (Z.leb_spec (- c) 0) as [H|H].
  - exists (- c). split; [exact E|lia].
  - apply le_iff; [apply len; exact B|apply len; exact A|]. right. apply S1. lia.
Qed.
Lemma ins_sorted a : (a < length l)%nat -> forall r, Forall (fun b => (b < length l)%nat) r -> StronglySorted le r -> StronglySorted le (pos_ins o l a r).
Proof.
  intros A. induction r as [|b r IH]; intros HB HS; cbn; [constructor; constructor|]. destruct (proj1 (Forall_cons_iff _ _ _) HB) as [B HB']. destruct (StronglySorted_inv HS) as [HS' HF]. pose proof (pos_le_ok a b A B) as P. destruct (pos_le o l a b).
  - constructor; [exact HS|]. constructor; [exact P|]. rewrite Forall_forall in HB', HF |- *. intros c Hc. apply (le_trans a b c A B (HB' c Hc) P (HF c Hc)).
  - constructor; [apply IH; assumption|]. apply (Permutation_Forall (Permutation_sym (ins_perm o l a r))). constructor; assumption.
Qed.
Lemma o_sort_perm s : Permutation (fold_right (pos_ins o l) [] s) s.
Proof. induction s as [|a s IH]; cbn; [reflexivity|]. rewrite ins_perm, IH. reflexivity. Qed.
Lemma o_sort_ok : sorts (gens_le o) (o_sort o) l.
Proof.
  split; [apply o_sort_perm|]. intros d. unfold o_sort. assert (H : forall s, Forall (fun b => (b < length l)%nat) s -> StronglySorted le (fold_right (pos_ins o l) [] s)).
  { induction s as [|a s IH]; intros H; cbn; [constructor|]. destruct (proj1 (Forall_cons_iff _ _ _) H) as [H1 H2]. apply ins_sorted; [assumption| |apply IH; assumption]. apply (Permutation_Forall (Permutation_sym (o_sort_perm s))). assumption. }
  assert (B : Forall (fun b => (b < length l)%nat) (seq 0 (length l))) by (apply Forall_forall; intros b Hb; apply in_seq in Hb; lia). specialize (H _ B). pose proof (Permutation_Forall (Permutation_sym (o_sort_perm (seq 0 (length l)))) B) as B'.
  clear B. induction H as [|a r H IH HF]; cbn; [constructor|]. destruct (proj1 (Forall_cons_iff _ _ _) B') as [A B]. constructor; [apply IH; exact B|]. rewrite Forall_map. rewrite Forall_forall in B, HF |- *. intros b Hb. specialize (HF b Hb). unfold le in HF.
  rewrite (nth_indep l d []), (nth_indep l d []) by (try exact A; apply B; exact Hb). exact HF.
Qed.
End Sort.
Lemma call_std o p thr : o_ok o -> (o_nev o <> 0 \/ o_mo o <> 1)%nat -> prime p -> 2 < p < 2 ^ 31 -> (1 <= thr)%nat -> call_ok (std_config o K31 p thr) (o_sort o) (fun l => l).
Proof.
  intros O1 O2 P1 P2 T. split; [apply std_config_ok; [exact O1|exact P1|unfold in_class; lia|exact T]|exact O2| |reflexivity]. intros l Hl. apply o_sort_ok; assumption.
Qed.
(** Deciding [given_poly]. *)
Definition given_b (p : Z) (n : nat) (f : lpoly) : bool :=
  forallb (fun t => (- 2 ^ 31 <=? fst t) && (fst t <? 2 ^ 31) && (- p <=? fst t) && negb (fst t mod p =? 0) && (length (snd t) =? n)%nat && forallb (fun x => (0 <=? x) && (x <? 2 ^ 16)) (snd t))%bool f.
Lemma given_b_ok p n f : 0 < p -> f <> [] -> NoDup (map snd f) -> given_b p n f = true -> given_poly p n f.
Proof.
  intros P NE ND B. split; [exact NE|]. split; [exact ND|]. intros t Ht. unfold given_b in B. rewrite forallb_forall in B. specialize (B t Ht). rewrite !andb_true_iff in B. destruct B as (((((B1 & B2) & B3) & B4) & B5) & B6).
  apply Z.leb_le in B1, B3. apply Z.ltb_lt in B2. apply negb_true_iff, Z.eqb_neq in B4. apply Nat.eqb_eq in B5. split; [lia|]. split; [exact B3|]. split; [intros K; apply B4; now apply Z.mod_divide; [lia|]|]. split; [exact B5|]. apply Forall_forall. intros x Hx. rewrite forallb_forall in B6. specialize (B6 x Hx). apply andb_true_iff in B6 as [X1 X2]. apply Z.leb_le in X1. apply Z.ltb_lt in X2. lia.
Qed.
Ltac given := apply given_b_ok; [lia|discriminate|repeat constructor; cbn; intuition discriminate|vm_compute; reflexivity].
Ltac givens := repeat (apply Forall_cons; [given|]); apply Forall_nil.

(** ** 2 x^2 + 2 y and -3 + 3 x y modulo 101, the terms in any order *)
Definition lib_in : list lpoly := [[(2, [0; 1]); (2, [2; 0])]; [(-3, [0; 0]); (3, [1; 1])]].
Definition lib_arr : arrays := {| a_lens := [2; 2]; a_exps := [0; 1; 2; 0; 0; 0; 1; 1]; a_cfs := [2; 2; -3; 3] |}.
Definition lib_out : arrays := {| a_lens := [2; 2; 2]; a_exps := [0; 2; 1; 0; 1; 1; 0; 0; 2; 0; 0; 1]; a_cfs := [1; 1; 1; 100; 1; 1] |}.
Lemma lib_given : Forall (given_poly 101 2) lib_in.
Proof. givens. Qed.
Lemma lib_call : call_ok cfg1 (o_sort ord2) (fun l => l).
Proof. apply call_std; [apply ord2_ok|right; cbn; lia|apply prime_101|lia|lia]. Qed.
Example C79_basis_ex : call_ok cfg1 (o_sort ord2) (fun l => l) /\ Forall (given_poly 101 2) lib_in /\ denotes lib_arr lib_in /\
  export_f4 cfg1 (o_sort ord2) (fun l => l) true 20 lib_arr = Ok (6, Some (3, lib_out)) /\ denotes lib_out (map (handed 2) out_ex).
Proof. split; [exact lib_call|]. split; [exact lib_given|]. split; [repeat split|]. split; [vm_compute; reflexivity|repeat split]. Qed.
(** the same ideal from other generators: -x y + 1 first, then x^2 + 7 x y + y - 7 *)
Definition lib_in2 : list lpoly := [[(1, [0; 0]); (-1, [1; 1])]; [(7, [1; 1]); (-7, [0; 0]); (1, [2; 0]); (1, [0; 1])]].
Definition lib_arr2 : arrays := {| a_lens := [2; 4]; a_exps := [0; 0; 1; 1; 1; 1; 0; 0; 2; 0; 0; 1]; a_cfs := [1; -1; 7; -7; 1; 1] |}.
Example C79_canonical_ex : Forall (given_poly 101 2) lib_in2 /\ denotes lib_arr2 lib_in2 /\ export_f4 cfg1 (o_sort ord2) (fun l => l) true 20 lib_arr2 = Ok (6, Some (3, lib_out)).
Proof. split; [givens|]. split; [repeat split|vm_compute; reflexivity]. Qed.
(** normal forms of x y^2 - y (a member), x^3 and -y^2 - 2: 0, -1 and x - 2 *)
Definition lib_tbr : list lpoly := [[(1, [1; 2]); (-1, [0; 1])]; [(1, [3; 0])]; [(-2, [0; 0]); (-1, [0; 2])]].
Definition lib_tarr : arrays := {| a_lens := [2; 1; 2]; a_exps := [1; 2; 0; 1; 3; 0; 0; 0; 0; 2]; a_cfs := [1; -1; 1; -2; -1] |}.
Definition lib_nf : arrays := {| a_lens := [1; 1; 2]; a_exps := [0; 0; 0; 0; 1; 0; 0; 0]; a_cfs := [0; 100; 1; 99] |}.
Example C79_nf_ex : Forall (given_poly 101 2) lib_tbr /\ denotes lib_tarr lib_tbr /\ export_nf cfg1 cfg1 (o_sort ord2) (fun l => l) false 20 lib_arr lib_tarr = Ok (4, Some (3, lib_nf)) /\
  denotes lib_nf (map (handed 2) [[]; [(100, [0; 0]%N)]; [(1, [1; 0]%N); (99, [0; 0]%N)]]).
Proof. split; [givens|]. split; [repeat split|]. split; [vm_compute; reflexivity|repeat split]. Qed.
(** ** A block order: x eliminated, the generator x y - 1, and x^2 y - x to be reduced *)
Definition blk_cfg : config := std_config ord21 K31 101 2.
Definition blk_in : list lpoly := [[(1, [1; 1]); (-1, [0; 0])]].
Definition blk_arr : arrays := {| a_lens := [2]; a_exps := [1; 1; 0; 0]; a_cfs := [1; -1] |}.
Definition blk_t : list lpoly := [[(1, [2; 1]); (-1, [1; 0])]].
Definition blk_tarr : arrays := {| a_lens := [2]; a_exps := [2; 1; 1; 0]; a_cfs := [1; -1] |}.
Example C79_zero_block_ex : call_ok blk_cfg (o_sort ord21) (fun l => l) /\ Forall (given_poly 101 2) blk_in /\ Forall (given_poly 101 2) blk_t /\ denotes blk_arr blk_in /\ denotes blk_tarr blk_t /\
  lib_import ord21 (o_sort ord21) (fun l => l) 101 blk_arr = Some (1, hyp) /\ core_f4 blk_cfg true 20 hyp = Ok hyp /\
  tbr_import ord21 (o_sort ord21) 101 blk_tarr = Some [[(1, [2; 1]%N); (100, [1; 0]%N)]] /\ basis_nf blk_cfg 20 hyp [[(1, [2; 1]%N); (100, [1; 0]%N)]] = Ok [[]] /\
  export_nf blk_cfg blk_cfg (o_sort ord21) (fun l => l) false 20 blk_arr blk_tarr = Undef /\
  export_f4 blk_cfg (o_sort ord21) (fun l => l) true 20 blk_arr = Ok (2, Some (1, {| a_lens := [2]; a_exps := [1; 1; 0; 0]; a_cfs := [1; 100] |})).
Proof.
  split; [apply call_std; [unfold o_ok; cbn; lia|left; cbn; lia|apply prime_101|lia|lia]|]. split; [givens|]. split; [givens|]. split; [repeat split|]. split; [repeat split|].
  repeat split; vm_compute; reflexivity.
Qed.
(** ** The zero ideal, given as 0 *)
Example C79_zero_ideal_ex : denotes {| a_lens := [1]; a_exps := [0; 0]; a_cfs := [0] |} [[(0, [0; 0])]] /\ export_f4 cfg1 (o_sort ord2) (fun l => l) true 20 {| a_lens := [1]; a_exps := [0; 0]; a_cfs := [0] |} = Undef.
Proof. split; [repeat split|vm_compute; reflexivity]. Qed.
