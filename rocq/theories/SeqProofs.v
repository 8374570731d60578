(** The scalar sequence and the table filled by FGLM. *)
From Coq Require Import ZArith Arith List Bool Lia Znumtheory Setoid Morphisms.
From Verif Require Import LinSpec FpSpec FglmSpec ModInvModel NmodModel BmModel FglmModel MatVecProofs.
Import ListNotations.
Open Scope Z_scope.

Lemma mvec_mod p D M v w i : (forall j, (j < D)%nat -> eqp p (v j) (w j)) -> eqp p (mvec D M v i) (mvec D M w i).
Proof. intros H. apply sumn_eqp. intros j Hj. rewrite (H j Hj). reflexivity. Qed.
Lemma idx_split bs i j i' j' : (j < bs)%nat -> (j' < bs)%nat -> (i * bs + j = i' * bs + j')%nat -> i = i' /\ j = j'.
Proof. intros H H' E. assert (i = i') by (destruct (Nat.lt_trichotomy i i') as [L|[L|L]]; [nia|exact L|nia]). subst. split; [reflexivity|lia]. Qed.

Section S.
Variables (k : kernel) (p : Z) (m : sp_mat) (M : mat) (sq : nat -> nat -> Z) (nv bs sz : nat) (v0 : nat -> Z).
Hypothesis P2 : 2 <= p.
Hypothesis PU : p < 1518500213.
Hypothesis R : represents p m M.
Notation D := (m_ncols m).
Hypothesis B1 : (1 <= bs)%nat.
Hypothesis BD : (bs < D \/ bs = 1)%nat.
Hypothesis D1 : (1 <= D)%nat.
Hypothesis ES : (sz = 2 * nv * D)%nat.
Hypothesis SZ : (2 * bs * D <= sz)%nat.
Notation s i := (mpow D M v0 i).

Lemma holds_small n l v : holds_vec p n l v -> small p l.
Proof. clear B1 BD D1 ES SZ. intros [L H] c I. apply (In_nth _ _ 0) in I as (i & Hi & <-). rewrite H by lia. apply Z.mod_pos_bound. lia. Qed.
Lemma step_holds old l i : length old = D -> holds_vec p D l (s i) -> exists l', mult_vec k p m old l = Some l' /\ holds_vec p D l' (s (S i)).
Proof.
  intros Lo H. destruct (mult_vec_ok p m M P2 PU R k old l Lo (proj1 H) (holds_small _ _ _ H)) as (r & E & L & V). exists r. split; [exact E|]. split; [exact L|]. intros j Hj. rewrite V by exact Hj. apply eqp_iff_mod; [lia|]. apply mvec_mod. intros t Ht. rewrite (proj2 H) by exact Ht. apply eqp_mod. lia.
Qed.
(** what the table holds after n products *)
Definition table (n : nat) (res : list Z) : Prop := length res = sz /\
  (forall i, (i < n)%nat -> nth (i * bs) res 0 = s i 0%nat mod p) /\
  (forall i j, (i < n)%nat -> (i < D)%nat -> (1 <= j < bs)%nat -> nth (i * bs + j) res 0 = s i (S j) mod p).
Lemma in_map_seq (f : nat -> nat) (g : nat -> Z) a n i : In i (map fst (map (fun j => (f j, g j)) (seq a n))) -> exists j, (a <= j < a + n)%nat /\ i = f j.
Proof. rewrite map_map. cbn [fst]. intros I. apply in_map_iff in I as (j & <- & I). apply in_seq in I. exists j. split; [lia|reflexivity]. Qed.
Lemma nodup_map_seq (f : nat -> nat) (g : nat -> Z) a n : (forall i j, (f i = f j -> i = j)) -> NoDup (map fst (map (fun j => (f j, g j)) (seq a n))).
Proof. intros H. rewrite map_map. cbn [fst]. revert a. induction n as [|n IH]; intros a; cbn [seq map]; constructor; [|apply IH]. intros I. apply in_map_iff in I as (j & E & I). apply in_seq in I. apply H in E. lia. Qed.
Lemma store_row_ok n l res : (n < D)%nat -> holds_vec p D l (s n) -> table n res -> exists res', store_row bs n l res = Some res' /\ table (S n) res'.
Proof.
  intros Hn [Ll Hl] (L & T0 & T1). unfold store_row. rewrite (nth_error_ok l 0 0) by lia. unfold obind at 1.
  destruct (upd_ok res (n * bs) (nth 0 l 0)) as (r1 & E1 & L1 & V1 & O1); [nia|]. rewrite E1. unfold obind at 1.
  rewrite (omap_map _ (fun j => ((n * bs + j)%nat, nth (S j) l 0))).
  2: { intros j Hj. apply in_seq in Hj. rewrite (nth_error_ok l (S j) 0) by lia. reflexivity. }
  unfold obind at 1. set (w := map _ (seq 1 (bs - 1))). destruct (upds_ok w r1) as (r2 & E2 & L2 & V2 & O2).
  { intros i Hi. apply in_map_seq in Hi as (j & Hj & ->). rewrite L1, L. nia. }
  { apply nodup_map_seq. intros i j E. lia. }
  exists r2. split; [exact E2|]. assert (N : forall i j, (i * bs + j < n * bs)%nat \/ (n * bs + bs <= i * bs + j)%nat -> nth (i * bs + j) r2 0 = nth (i * bs + j) res 0).
  { intros i j H. rewrite O2 by (intros I; apply in_map_seq in I as (t & Ht & E); lia). apply O1. lia. }
  split; [lia|]. split.
  - intros i Hi. destruct (Nat.eq_dec i n) as [->|Ne].
    + rewrite O2 by (intros I; apply in_map_seq in I as (t & Ht & E); lia). rewrite V1, Hl by lia. reflexivity.
    + specialize (N i 0%nat). rewrite Nat.add_0_r in N. rewrite N by (left; nia). apply T0. lia.
  - intros i j Hi HiD Hj. destruct (Nat.eq_dec i n) as [->|Ne].
    + rewrite (V2 (n * bs + j)%nat (nth (S j) l 0)); [apply Hl; lia|]. unfold w. apply in_map_iff. exists j. split; [reflexivity|apply in_seq; lia].
    + rewrite N by (left; nia). apply T1; lia.
Qed.
Lemma store_sq_ok n n' res : (n <= D)%nat -> (n' < D)%nat -> table n res -> exists res', store_sq sq D bs n' res = Some res' /\ table n res'.
Proof.
  intros Hn Hn' (L & T0 & T1). unfold store_sq. set (w := map _ (seq 1 (bs - 1))). destruct (upds_ok w res) as (r & E & L' & V & O).
  { intros i Hi. apply in_map_seq in Hi as (j & Hj & ->). rewrite L. nia. }
  { apply nodup_map_seq. intros i j E. lia. }
  exists r. split; [exact E|]. assert (N : forall i, (i <= (n' + D) * bs)%nat -> nth i r 0 = nth i res 0). { intros i H. apply O. intros I. apply in_map_seq in I as (t & Ht & Et). lia. }
  split; [lia|]. split.
  - intros i Hi. rewrite N by nia. apply T0. exact Hi.
  - intros i j Hi HiD Hj. rewrite N by nia. apply T1; assumption.
Qed.
Lemma seq_loop_ok : forall n i l old res, (i + n <= 2 * D)%nat -> (1 <= i)%nat -> length old = D -> holds_vec p D l (s (i - 1)) -> table i res ->
  exists res', seq_loop k p m sq bs n i l old res = Some res' /\ table (i + n) res'.
Proof.
  induction n as [|n IH]; intros i l old res Hn Hi Lo Hl T; cbn [seq_loop].
  - exists res. rewrite Nat.add_0_r. auto.
  - destruct (step_holds old l (i - 1) Lo Hl) as (l' & E & Hl'). replace (S (i - 1)) with i in Hl' by lia. rewrite E. unfold obind at 1.
    assert (ST : exists res1, (if (i <? D)%nat then let? r := store_row bs i l' res in store_sq sq D bs i r else let? x0 := nth_error l' 0 in upd res (i * bs) x0) = Some res1 /\ table (S i) res1).
    { destruct (Nat.ltb_spec i D) as [H|H].
      - destruct (store_row_ok i l' res H Hl' T) as (r1 & E1 & T1). rewrite E1. unfold obind. apply store_sq_ok; [lia|exact H|exact T1].
      - destruct T as (L & T0 & T1). rewrite (nth_error_ok l' 0 0) by (rewrite (proj1 Hl'); lia). unfold obind. destruct (upd_ok res (i * bs) (nth 0 l' 0)) as (r1 & E1 & L1 & V1 & O1); [rewrite L; nia|]. exists r1. split; [exact E1|]. split; [lia|]. split.
        + intros i' Hi'. destruct (Nat.eq_dec i' i) as [->|Ne]; [rewrite V1; apply (proj2 Hl'); lia|]. rewrite O1 by nia. apply T0. lia.
        + intros i' j Hi' HD Hj. rewrite O1 by nia. apply T1; lia. }
    destruct ST as (res1 & -> & T1). unfold obind. destruct (IH (S i) l' l res1) as (res' & E' & T'); try lia; try exact T1; [exact (proj1 Hl)|replace (S i - 1)%nat with i by lia; exact Hl'|]. exists res'. split; [exact E'|]. rewrite Nat.add_succ_r. exact T'.
Qed.
Lemma gen_res_ok l old : length old = D -> holds_vec p D l v0 -> exists res, gen_res k p m sq nv bs l old = Some res /\ table (2 * D) res.
Proof.
  intros Lo Hl. unfold gen_res. destruct (store_row_ok 0 l (repeat 0 (2 * nv * D)) D1 Hl) as (r0 & E0 & T0); [split; [rewrite ES; apply repeat_length|split; [intros i Hi; lia|intros i j Hi; lia]]|]. rewrite E0. unfold obind at 1.
  destruct (store_sq_ok 1 0 r0) as (r1 & E1 & T1); [lia|lia|exact T0|]. rewrite E1. unfold obind at 1. destruct (seq_loop_ok (2 * D - 1) 1 l old r1) as (r & E & T); try lia; [exact Hl|exact T1|]. exists r. split; [exact E|]. replace (1 + (2 * D - 1))%nat with (2 * D)%nat in T by lia. exact T.
Qed.
Lemma gen_pts_ok res : table (2 * D) res -> gen_pts D bs res = Some (map (fun i => s i 0%nat mod p) (seq 0 (2 * D))).
Proof.
  intros (L & T0 & _). unfold gen_pts. apply omap_map. intros i Hi. apply in_seq in Hi. rewrite (nth_error_ok res _ 0) by nia. rewrite T0 by lia. reflexivity.
Qed.
Lemma rhs_ok res j : table (2 * D) res -> (1 <= j < bs)%nat -> hankel_rhs res D bs (S j) = Some (map (fun i => s i (S j) mod p) (seq 0 D)).
Proof.
  intros (L & _ & T1) Hj. unfold hankel_rhs. apply omap_map. intros i Hi. apply in_seq in Hi. replace (S j - 1 + i * bs)%nat with (i * bs + j)%nat by lia. rewrite (nth_error_ok res _ 0) by nia. rewrite T1 by lia. reflexivity.
Qed.
End S.
