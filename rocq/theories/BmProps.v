(** C47: recovery of the minimal polynomial of a linearly recurrent sequence modulo a prime. *)
From Coq Require Import ZArith Arith List Bool Lia Znumtheory Setoid Morphisms Ring.
From Verif Require Import LinSpec FpSpec ModInvModel NmodModel FpProofs BmModel BmProofs.
Import ListNotations.
Open Scope Z_scope.

(** a monic polynomial with coefficients in [0, p) and of degree v *)
Definition monic_of_degree (p : Z) (a : list Z) (v : nat) : Prop :=
  length a = S v /\ nth v a 0 = 1 /\ forall c, In c a -> 0 <= c < p.
(** the minimal polynomial of a sequence: it annihilates the sequence and divides every polynomial that does *)
Definition minimal_polynomial (p : Z) (V : list Z) (s : nat -> Z) : Prop :=
  annihilates p V s /\ forall Q, annihilates p Q s -> pdvd p V Q.

Section C47.
Variable p : Z.
Hypothesis Hp : prime p.
Notation "a == b" := (peq p a b) (at level 70).
Add Ring fp_ring4 : (pring p) (setoid (peq_eq p) (prext p)).
Lemma nf_of_monic a v : monic_of_degree p a v -> nf p a /\ hdeg p a v.
Proof.
  intros (L & M & R). pose proof (p2 p Hp). assert (K : hdeg p a v).
  { split; [rewrite <- L; apply dlt_len|]. unfold pc. rewrite M. apply one_ne. exact Hp. }
  split; [|exact K]. apply (nth_ext _ _ 0 0).
  - assert (K' : hdeg p (norm p a) v) by (rewrite norm_peq by exact Hp; exact K). rewrite (nf_len p Hp _ v (nf_norm p Hp a) K'). symmetry. exact L.
  - intros i _. fold (pc (norm p a) i) (pc a i). apply (eqp_small p); [apply nf_pc; [exact Hp|apply nf_norm; exact Hp]| |apply norm_peq; exact Hp]. unfold pc. destruct (nth_in_or_default i a 0) as [I|I]; [auto|rewrite I; lia].
Qed.
Lemma pscal_ann c q s : annihilates p q s -> annihilates p (pscal c q) s.
Proof. intros H i. rewrite apply_pscal, (H i), Z.mul_0_r. reflexivity. Qed.
Lemma elim_core B pts s Q D n : binv p B -> bpts B ++ pts = map s (seq 0 n) -> hdeg p Q D -> (2 * D <= n)%nat -> annihilates p Q s ->
  exists B' v, compute_elim_poly p B pts = Some B' /\ monic_of_degree p (bV1 B') v /\ (v <= D)%nat /\ minimal_polynomial p (bV1 B') s /\ bpts B' = map s (seq 0 n).
Proof.
  intros I E HQ L A. destruct (bm_reduce_ok p Hp _ (add_inv p B pts I)) as (B1 & E1 & P1 & N1 & I1). cbn [bm_add_points bpts] in P1, N1. rewrite E in P1, N1. rewrite map_length, seq_length in N1.
  destruct (bm_minimal_core p Hp B1 n s Q D I1 P1 N1 HQ L A) as (v & Hv & Nv & Av & Lv & Mv). destruct (nmonic_ok p Hp (bV1 B1) v Nv Hv) as (b & Eb & Nb & Ebq & Zi & Hb & M1 & Lb).
  unfold compute_elim_poly. rewrite E1. unfold obind. rewrite Eb. eexists; exists v; split; [reflexivity|]. cbn [bV1 bpts]. split; [split; [exact Lb|split; [exact M1|apply nf_range; assumption]]|]. split; [exact Lv|]. split; [|exact P1]. split.
  - apply (ann_peq p (pscal (zinv p (pc (bV1 B1) v)) (bV1 B1))); [symmetry; exact Ebq|]. apply pscal_ann. exact Av.
  - intros Q' A'. destruct (Mv Q' A') as (c & Ec). set (z := zinv p (pc (bV1 B1) v)) in *. exists (pmul c [zinv p z]). destruct (zinv_ok p Hp z Zi) as [Z1 _]. rewrite Ebq, pscal_pmul, Ec. assert (K : pmul [zinv p z] [z] == [1]).
    { intros i. rewrite pc_pmul_cons. destruct i as [|i]; cbn [pmul]; rewrite ?pc_cons0, ?pc_consS, ?pc_nil; [rewrite Z.add_0_r; exact Z1|rewrite Z.mul_0_r; reflexivity]. }
    transitivity (pmul (pmul [zinv p z] [z]) (pmul c (bV1 B1))); [rewrite K; ring|ring].
Qed.
Lemma mutual_monic a b va vb : monic_of_degree p a va -> monic_of_degree p b vb -> pdvd p a b -> pdvd p b a -> a = b.
Proof.
  intros Ha Hb (c & Ec) (c' & Ec'). destruct (nf_of_monic _ _ Ha) as [Na Da], (nf_of_monic _ _ Hb) as [Nb Db].
  pose proof Db as K. rewrite Ec in K. destruct (hdeg_factor p Hp _ _ _ K) as (i & j & Hc & Hj & Sj). pose proof (hdeg_uniq p _ _ _ Hj Da). pose proof Da as K'. rewrite Ec' in K'. destruct (hdeg_factor p Hp _ _ _ K') as (i' & j' & Hc' & Hj' & Sj'). pose proof (hdeg_uniq p _ _ _ Hj' Db). assert (i = 0)%nat by lia. subst i j. assert (Ev : vb = va) by lia. rewrite Ev in *. clear Ev.
  apply nf_ext with (p := p); [exact Hp|exact Na|exact Nb|]. assert (C : eqp p (pc c 0) 1).
  { destruct (pmul_top p c a 0 va (hdeg_dlt p _ _ Hc) (hdeg_dlt p _ _ Da)) as [_ T]. change (0 + va)%nat with va in T. rewrite <- (Ec va) in T. destruct Ha as (_ & Ma & _), Hb as (_ & Mb & _). fold (pc a va) in Ma. fold (pc b va) in Mb. rewrite Ma, Mb, Z.mul_1_r in T. symmetry. exact T. }
  assert (Cc : c == [1]). { intros k. destruct k as [|k]; [exact C|]. rewrite pc_consS, pc_nil. apply (hdeg_dlt p _ _ Hc). lia. }
  rewrite Ec, Cc. ring.
Qed.
Lemma minimal_unique a b va vb s : monic_of_degree p a va -> monic_of_degree p b vb -> minimal_polynomial p a s -> minimal_polynomial p b s -> a = b.
Proof. intros Ha Hb [A1 M1] [A2 M2]. exact (mutual_monic a b va vb Ha Hb (M1 b A2) (M2 a A1)). Qed.
End C47.

(** From 2D or more terms of a sequence that satisfies some linear recurrence of order D, the computation succeeds and
    returns the monic minimal polynomial of the whole infinite sequence. *)
Theorem C47_minimal : forall p s Q D n, prime p -> hdeg p Q D -> annihilates p Q s -> (2 * D <= n)%nat ->
  exists B v, compute_elim_poly p bm_start (map s (seq 0 n)) = Some B /\ monic_of_degree p (bV1 B) v /\ (v <= D)%nat /\
    minimal_polynomial p (bV1 B) s.
Proof.
  intros p s Q D n Hp HQ A L. destruct (elim_core p Hp bm_start (map s (seq 0 n)) s Q D n (start_inv p Hp) eq_refl HQ L A) as (B & v & E & M & Lv & Mn & _). exists B, v. auto.
Qed.
Print Assumptions C47_minimal.

(** The minimal polynomial is unique: two monic ones are equal coefficient by coefficient. *)
Theorem C47_unique : forall p s a b va vb, prime p -> monic_of_degree p a va -> monic_of_degree p b vb ->
  minimal_polynomial p a s -> minimal_polynomial p b s -> a = b.
Proof. intros p s a b va vb Hp. exact (minimal_unique p Hp a b va vb s). Qed.
Print Assumptions C47_unique.

(** Adding the terms in several batches, with a reduction after each, changes nothing. *)
Fixpoint bm_run (p : Z) (B : bms) (batches : list (list Z)) : option bms :=
  match batches with [] => Some B | b :: bs => let? B' := bm_reduce p (bm_add_points B b) in bm_run p B' bs end.
Theorem C47_batches : forall p s Q D n batches last, prime p -> hdeg p Q D -> annihilates p Q s -> (2 * D <= n)%nat ->
  concat batches ++ last = map s (seq 0 n) ->
  exists B0 B B1, bm_run p bm_start batches = Some B0 /\ compute_elim_poly p B0 last = Some B /\
    compute_elim_poly p bm_start (map s (seq 0 n)) = Some B1 /\ bV1 B = bV1 B1 /\ minimal_polynomial p (bV1 B) s.
Proof.
  intros p s Q D n batches last Hp HQ A L E.
  assert (R : forall bs B, binv p B -> exists B', bm_run p B bs = Some B' /\ binv p B' /\ bpts B' = bpts B ++ concat bs).
  { induction bs as [|b bs IH]; intros B I; cbn [bm_run concat]; [exists B; rewrite app_nil_r; auto|]. destruct (bm_reduce_ok p Hp _ (add_inv p B b I)) as (B1 & E1 & P1 & _ & I1). rewrite E1. unfold obind. destruct (IH B1 I1) as (B' & E' & I' & P'). exists B'. split; [exact E'|]. split; [exact I'|]. rewrite P', P1. cbn [bm_add_points bpts]. rewrite app_assoc. reflexivity. }
  destruct (R batches bm_start (start_inv p Hp)) as (B0 & E0 & I0 & P0). cbn [bm_start bpts app] in P0. rewrite <- P0 in E. destruct (elim_core p Hp B0 last s Q D n I0 E HQ L A) as (B & v & E1 & M & _ & Mn & _).
  destruct (C47_minimal p s Q D n Hp HQ A L) as (B1 & v1 & E2 & M1 & _ & Mn1). exists B0, B, B1. split; [exact E0|]. split; [exact E1|]. split; [exact E2|]. split; [|exact Mn]. exact (C47_unique p s _ _ v v1 Hp M M1 Mn Mn1).
Qed.
Print Assumptions C47_batches.

(** Fewer than 2D terms do not suffice: a sequence of order 2 whose first three terms give another answer. *)
Definition ex_seq (i : nat) : Z := match i with O => 1 | S O => 2 | _ => 4 end.
Theorem C47_too_few : annihilates 101 [0; 0; -1; 1] ex_seq /\
  exists B, compute_elim_poly 101 bm_start (map ex_seq (seq 0 3)) = Some B /\ ~ annihilates 101 (bV1 B) ex_seq.
Proof.
  split.
  - intros i. cbn [apply_at]. destruct i as [|[|i]]; cbn [ex_seq]; exists 0; reflexivity.
  - eexists. split; [vm_compute; reflexivity|]. intros H. specialize (H 2%nat). cbn [bV1 apply_at ex_seq] in H. destruct H as [q H]. lia.
Qed.
Print Assumptions C47_too_few.

(** Cases. Fibonacci numbers modulo 101 satisfy the hypotheses with D = 2: *)
Fixpoint fib2 (i : nat) : Z * Z := match i with O => (0, 1) | S j => let (a, b) := fib2 j in (b, a + b) end.
Definition fib (i : nat) : Z := fst (fib2 i).
Example C47_fib_hyp : annihilates 101 [-1; -1; 1] fib /\ hdeg 101 [-1; -1; 1] 2.
Proof.
  split.
  - intros i. cbn [apply_at]. unfold fib. cbn [fib2]. destruct (fib2 i) as [a b]. cbn [fst]. exists 0. ring.
  - split; [intros [|[|[|i]]] Hi; try lia; unfold pc; cbn [nth]; destruct i; reflexivity|intros [q H]; cbn in H; lia].
Qed.
Example C47_fib : option_map bV1 (compute_elim_poly 101 bm_start (map fib (seq 0 4))) = Some [100; 100; 1].
Proof. vm_compute. reflexivity. Qed.
(** A sequence of order 8 with minimal polynomial (x-1)...(x-8): the branch with the half gcd is taken. *)
Example C47_order8 :
  option_map bV1 (compute_elim_poly 65521 bm_start (map (fun i => fold_right Z.add 0 (map (fun c => c ^ Z.of_nat i) [1;2;3;4;5;6;7;8])) (seq 0 16))) =
  Some (norm 65521 (fold_right pmul [1] (map (fun c => [- c; 1]) [1;2;3;4;5;6;7;8]))).
Proof. vm_compute. reflexivity. Qed.
