(** The second half of the table of the sequence: the squares of the variables. *)
From Coq Require Import ZArith NArith Arith List Bool Lia Znumtheory Setoid Morphisms.
From Verif Require Import LinSpec MonoSpec GbSpec FpSpec FglmSpec ModInvModel NmodModel BmModel FglmModel MatVecProofs SeqProofs HankelProofs NsModel.
Import ListNotations.
Open Scope Z_scope.

Lemma upd_frame l : forall i x l', upd l i x = Some l' -> length l' = length l /\ nth i l' 0 = x /\ forall j, j <> i -> nth j l' 0 = nth j l 0.
Proof.
  induction l as [|y l IH]; intros i x l' E; [discriminate|]. destruct i as [|i]; cbn [upd] in E.
  - injection E as <-. split; [reflexivity|]. split; [reflexivity|]. intros [|j] H; [congruence|reflexivity].
  - destruct (upd l i x) as [r|] eqn:E1; [|discriminate]. unfold obind in E. injection E as <-. destruct (IH i x r E1) as (A1 & A2 & A3). cbn [length nth]. split; [congruence|]. split; [exact A2|]. intros [|j] H; [reflexivity|]. apply A3. congruence.
Qed.
Lemma upds_frame ixs : forall l l', upds l ixs = Some l' -> length l' = length l /\ forall j, ~ In j (map fst ixs) -> nth j l' 0 = nth j l 0.
Proof.
  induction ixs as [|[i x] r IH]; intros l l' E; cbn [upds] in E; [injection E as <-; split; reflexivity|]. destruct (upd l i x) as [l1|] eqn:E1; [|discriminate]. unfold obind in E.
  destruct (upd_frame _ _ _ _ E1) as (A1 & A2 & A3), (IH l1 l' E) as (B1 & B2). split; [congruence|]. intros j H. cbn [map fst In] in H. rewrite B2 by tauto. apply A3. intros ->. tauto.
Qed.
Lemma upds_in ixs : NoDup (map fst ixs) -> forall l l' i x, upds l ixs = Some l' -> In (i, x) ixs -> nth i l' 0 = x.
Proof.
  induction ixs as [|[i0 x0] r IH]; intros ND l l' i x E I; [destruct I|]. cbn [upds] in E. destruct (upd l i0 x0) as [l1|] eqn:E1; [|discriminate]. unfold obind in E. inversion ND as [|? ? NI ND']; subst.
  destruct I as [[= -> ->]|I]; [|apply (IH ND' l1 l' i x E I)]. destruct (upds_frame _ _ _ E) as (_ & F). rewrite F by exact NI. apply (upd_frame _ _ _ _ E1).
Qed.
Lemma in_map_seq' (f : nat -> nat) (g : nat -> Z) a n i : In i (map fst (map (fun j => (f j, g j)) (seq a n))) -> exists j, (a <= j < a + n)%nat /\ i = f j.
Proof. rewrite map_map. cbn [fst]. intros I. apply in_map_iff in I as (j & <- & I). apply in_seq in I. exists j. split; [lia|reflexivity]. Qed.
Lemma nodup_map_seq' (f : nat -> nat) (g : nat -> Z) a n : (forall i j, (f i = f j -> i = j)) -> NoDup (map fst (map (fun j => (f j, g j)) (seq a n))).
Proof. intros H. rewrite map_map. cbn [fst]. revert a. induction n as [|n IH]; intros a; cbn [seq map]; constructor; [|apply IH]. intros I. apply in_map_iff in I as (j & E & I). apply in_seq in I. apply H in E. lia. Qed.
Section S.
Variables (k : kernel) (p : Z) (m : sp_mat) (sq : nat -> nat -> Z) (bs : nat).
Notation D := (m_ncols m).
Hypothesis B1 : (1 <= bs)%nat.
Definition sqt (n : nat) (res : list Z) : Prop := forall i j, (i < n)%nat -> (i < D)%nat -> (1 <= j < bs)%nat -> nth ((i + D) * bs + j) res 0 = sq i j.
Lemma row_frame n n0 l res res' : (n0 < D)%nat -> store_row bs n0 l res = Some res' -> sqt n res -> sqt n res'.
Proof.
  intros Hn E T i j Hi HD Hj. unfold store_row in E. destruct (nth_error l 0) as [x0|]; [|discriminate]. unfold obind at 1 in E. destruct (upd res (n0 * bs) x0) as [r|] eqn:E1; [|discriminate]. unfold obind at 1 in E.
  destruct (omap _ _) as [w|] eqn:Ew; [|discriminate]. unfold obind in E. destruct (upds_frame _ _ _ E) as (_ & F). destruct (upd_frame _ _ _ _ E1) as (_ & _ & F1).
  assert (W : forall i, In i (map fst w) -> (i < n0 * bs + bs)%nat).
  { intros x Hx. assert (K : forall l0 w0, (forall t, In t l0 -> (1 <= t < bs)%nat) -> omap (fun j => let? x := nth_error l (S j) in Some ((n0 * bs + j)%nat, x)) l0 = Some w0 -> In x (map fst w0) -> (x < n0 * bs + bs)%nat).
    { clear. induction l0 as [|t l0 IH]; intros w0 B E; cbn [omap] in E; [injection E as <-; intros []|]. destruct (nth_error l (S t)); [|discriminate]. unfold obind at 1 2 in E. destruct (omap _ l0) as [w1|] eqn:E1; [|discriminate]. unfold obind in E. injection E as <-. cbn [map fst In]. intros [<-|I]; [specialize (B t (or_introl eq_refl)); lia|]. apply (IH w1); [intros; apply B; right; assumption|reflexivity|exact I]. }
    apply (K (seq 1 (bs - 1)) w); [intros t Ht%in_seq; lia|exact Ew|exact Hx]. }
  rewrite F by (intros I; specialize (W _ I); nia). rewrite F1 by nia. apply T; assumption.
Qed.
Lemma sq_set n res res' : (n < D)%nat -> store_sq sq D bs n res = Some res' -> sqt n res -> sqt (S n) res'.
Proof.
  intros Hn E T i j Hi HD Hj. unfold store_sq in E. destruct (Nat.eq_dec i n) as [->|Ne].
  - refine (upds_in _ _ _ _ _ _ E _); [apply nodup_map_seq'; intros a c Eac; lia|]. apply in_map_iff. exists j. split; [reflexivity|apply in_seq; lia].
  - destruct (upds_frame _ _ _ E) as (_ & F). rewrite F; [apply T; lia|]. intros I. apply in_map_seq' in I as (t & Ht & Et). assert (i = n /\ j = t) as [-> _]; [|congruence]. assert (K : (i + D = n + D)%nat /\ j = t) by (apply (idx_split bs); lia). split; [lia|apply K].
Qed.
Lemma loop_frame : forall n i l old res res', (1 <= i)%nat -> seq_loop k p m sq bs n i l old res = Some res' -> sqt i res -> sqt (i + n) res'.
Proof.
  induction n as [|n IH]; intros i l old res res' Hi E T; cbn [seq_loop] in E; [injection E as <-; rewrite Nat.add_0_r; exact T|]. destruct (mult_vec k p m old l) as [l'|]; [|discriminate]. unfold obind at 1 in E.
  destruct (if (i <? D)%nat then _ else _) as [r1|] eqn:E1; [|discriminate]. unfold obind in E. rewrite Nat.add_succ_r. apply (IH (S i) l' l r1 res'); [lia|exact E|].
  destruct (Nat.ltb_spec i D) as [H|H].
  - destruct (store_row bs i l' res) as [r0|] eqn:E0; [|discriminate]. unfold obind in E1. apply (sq_set i r0); [exact H|exact E1|]. apply (row_frame i i l' res); assumption.
  - destruct (nth_error l' 0); [|discriminate]. unfold obind in E1. intros i' j Hi' HD Hj. destruct (upd_frame _ _ _ _ E1) as (_ & _ & F). rewrite F; [apply T; lia|]. intros Ee. assert ((i' + D) = i /\ j = 0)%nat as [_ K]; [|lia]. apply (idx_split bs); lia.
Qed.
Lemma gen_frame nv l old res : (1 <= D)%nat -> gen_res k p m sq nv bs l old = Some res -> sqt D res.
Proof.
  intros D1 E. unfold gen_res in E. destruct (store_row bs 0 l _) as [r0|] eqn:E0; [|discriminate]. unfold obind at 1 in E. destruct (store_sq sq D bs 0 r0) as [r1|] eqn:E1; [|discriminate]. unfold obind in E.
  assert (T : sqt (1 + (2 * D - 1)) res); [|intros i j Hi; apply T; lia]. apply (loop_frame _ 1 l old r1); [lia|exact E|]. apply (sq_set 0 r0); [lia|exact E1|]. intros i j Hi. lia.
Qed.
End S.

Lemma step_vec k p m M v0 old l i : 2 <= p -> p < 1518500213 -> represents p m M -> length old = m_ncols m -> holds_vec p (m_ncols m) l (mpow (m_ncols m) M v0 i) ->
  exists l', mult_vec k p m old l = Some l' /\ holds_vec p (m_ncols m) l' (mpow (m_ncols m) M v0 (S i)).
Proof.
  intros P2 PU R Lo H. assert (SM : small p l). { intros c I. apply (In_nth _ _ 0) in I as (t & Ht & <-). destruct H as [L H]. rewrite H by lia. apply Z.mod_pos_bound. lia. }
  destruct (mult_vec_ok p m M P2 PU R k old l Lo (proj1 H) SM) as (r & E & L & V). exists r. split; [exact E|]. split; [exact L|]. intros j Hj. rewrite V by exact Hj. apply eqp_iff_mod; [lia|]. apply mvec_mod. intros t Ht. rewrite (proj2 H) by exact Ht. apply eqp_mod. lia.
Qed.
(** the vectors of the sequence *)
Lemma vec_at_ok k p m M v0 : 2 <= p -> p < 1518500213 -> represents p m M -> forall n i l old, length old = m_ncols m ->
  holds_vec p (m_ncols m) l (mpow (m_ncols m) M v0 i) -> exists u, vec_at k p m n l old = Some u /\ holds_vec p (m_ncols m) u (mpow (m_ncols m) M v0 (i + n)).
Proof.
  intros P2 PU R. induction n as [|n IH]; intros i l old Lo H; cbn [vec_at]; [exists l; rewrite Nat.add_0_r; split; [reflexivity|exact H]|].
  destruct (step_vec k p m M v0 old l i P2 PU R Lo H) as (l' & -> & H'). unfold obind. destruct (IH (S i) l' l (proj1 H) H') as (u & E & Hu). exists u. split; [exact E|]. replace (i + S n)%nat with (S i + n)%nat by lia. exact Hu.
Qed.
Lemma column_var_ok nv lin q : (q < nv - 1)%nat -> lin q = false -> column_var nv lin (var_place nv lin q - 1) = q.
Proof.
  intros Hq Lq. unfold column_var, var_place. set (f := fun k => negb (lin k)). replace (seq 0 (nv - 1)) with (seq 0 q ++ q :: seq (S q) (nv - 2 - q)).
  2: { replace (nv - 1)%nat with (q + S (nv - 2 - q))%nat by lia. rewrite seq_app. reflexivity. }
  rewrite filter_app. cbn [filter]. assert (Fq : f q = true) by (unfold f; rewrite Lq; reflexivity). rewrite Fq. rewrite rev_app_distr. cbn [rev]. rewrite app_nth1; [|rewrite app_length, rev_length; cbn [length]; lia].
  rewrite app_nth2 by (rewrite rev_length; lia). rewrite rev_length. replace (2 + _ - 1 - 1 - _)%nat with 0%nat by lia. reflexivity.
Qed.
Lemma square_entry_ok k p m M v0 squ nv lin l old : 2 <= p -> p < 1518500213 -> represents p m M -> length old = m_ncols m -> holds_vec p (m_ncols m) l v0 ->
  forall i q, (q < nv - 1)%nat -> lin q = false -> (squ q < m_ncols m)%nat ->
  square_entry k p m squ nv lin l old i (var_place nv lin q - 1) = mpow (m_ncols m) M v0 i (squ q) mod p.
Proof.
  intros P2 PU R Lo Hl i q Hq Lq Sq. unfold square_entry. rewrite (column_var_ok nv lin q Hq Lq). destruct (vec_at_ok k p m M v0 P2 PU R i 0 l old Lo Hl) as (u & -> & Hu). apply Hu. exact Sq.
Qed.
