(** Properties C18, C19, C20, C21, C46, C53: linear algebra over prime fields. *)
From Coq Require Import ZArith Arith List Bool Lia Znumtheory Sorted Permutation.
From Verif Require Import ModInvModel ModInvProofs ModInvProps LinSpec LaSpec LaModel LaProofs LaRowProofs LaSysProofs.
Import ListNotations.
Open Scope Z_scope.

(** The size classes of the four kernels (io.c set_function_pointers), and the number of columns up to which the
    accumulators of the 8, 16 and 17 bit kernels have room. *)
Definition in_class (k : kern) (p : Z) : Prop :=
  2 <= p < match k with K8 => 2 ^ 8 | K16 => 2 ^ 16 | K17 => 2 ^ 18 | K31 => 2 ^ 31 end.
Definition columns_ok (k : kern) (p : Z) (ncols : nat) : Prop := k = K31 \/ (Z.of_nat ncols + 1) * (p * p) <= 2 ^ 63.
Lemma class_kern k p : in_class k p -> kern_ok k p.
Proof. intros H. unfold kern_ok, in_class in *. destruct k; lia. Qed.
Lemma columns_room k p n : columns_ok k p n -> kroom k p (S n).
Proof. intros [->|H]; [exact I|]. unfold kroom. rewrite Nat2Z.inj_succ. unfold Z.succ. destruct k; try assumption. exact I. Qed.
(** Enough for every matrix with at most 2^27 - 1 columns; for the 8 bit kernel every matrix with 32-bit indices. *)
Lemma columns_ok_27 k p n : in_class k p -> Z.of_nat n < 2 ^ 27 -> columns_ok k p n.
Proof. intros H Hn. unfold in_class, columns_ok in *. destruct k; [right|right|right|left; reflexivity]; nia. Qed.
Lemma columns_ok_8 p n : in_class K8 p -> Z.of_nat n < 2 ^ 32 -> columns_ok K8 p n.
Proof. intros H Hn. unfold in_class, columns_ok in *. right. nia. Qed.
Lemma columns_ok_16 p n : in_class K16 p -> Z.of_nat n < 2 ^ 31 -> columns_ok K16 p n.
Proof. intros H Hn. unfold in_class, columns_ok in *. right. nia. Qed.

(** C18. Reducing any row of residues by any array of monic pivot rows: every 64-bit operation stays in range, every
    array access is inside its array (in particular the arrays allocated for the result are long enough), and what
    is returned are nonzero residues. *)
Theorem C18_no_overflow : forall k p ncols ncl dpiv pivs dr,
  in_class k p -> columns_ok k p ncols -> pivots_ok p ncols pivs -> (dpiv <= ncols)%nat -> length dr = ncols ->
  (forall j, 0 <= dv dr j < p) -> (forall j, (j < dpiv)%nat -> dv dr j = 0) ->
  (forall j, (dpiv <= j < ncl)%nat -> (j < ncols)%nat -> pivs j <> None) ->
  exists dr' o, reduce_known k p pivs ncl ncols dpiv dr = Some (dr', o) /\ length dr' = ncols /\ (forall j, 0 <= dv dr' j < p) /\
  forall r, o = Some r -> forall t, In t r -> 0 < snd t < p.
Proof.
  intros k p ncols ncl dpiv pivs dr HK HC HP H1 H2 H3 H4 H5.
  destruct (reduce_known_ok k p ncols ncl dpiv pivs dr (class_kern k p HK) (columns_room k p ncols HC) HP H1 H2 H3 H4 H5) as (dr' & o & E & L & B & _ & _ & _ & Ho).
  exists dr', o. split; [assumption|]. split; [assumption|]. split; [assumption|]. intros r -> t Ht. apply Ho. assumption.
Qed.
Print Assumptions C18_no_overflow.

(** The bound on the number of columns cannot be dropped: with the 17 bit kernel and 2^31 + 1 columns the sum leaves the
    64-bit range, for every modulus between 2^16 and 2^18. *)
Definition two_rows (p : Z) (N : nat) : nat -> option srow := fun i => if (i <? N)%nat then Some [(i, 1); (N, p - 1)] else None.
Lemma two_rows_ok p N : 2 <= p -> pivots_ok p (S N) (two_rows p N).
Proof.
  intros Hp c r. unfold two_rows. destruct (Nat.ltb_spec c N) as [H|H]; [|discriminate]. intros [= <-]. split; [|split; [|split]].
  - cbn [map fst]. constructor; [|constructor; [intros []|constructor]]. intros [E|[]]. lia.
  - intros t [<-|[<-|[]]]; cbn [snd]; lia.
  - intros t [<-|[<-|[]]]; cbn [fst]; lia.
  - exists [(N, p - 1)]. split; [reflexivity|]. intros t [<-|[]]. cbn. assumption.
Qed.
Lemma two_rows_overflow p N : 2 ^ 16 < p < 2 ^ 18 -> 2 ^ 63 <= Z.of_nat N * ((p - 1) * (p - 1)) ->
  forall cnt i dr n, (i + cnt = S N)%nat -> length dr = S N -> (forall j, (i <= j < N)%nat -> dv dr j = 1) ->
  dv dr N = Z.of_nat i * ((p - 1) * (p - 1)) -> dv dr N < 2 ^ 63 -> red_loop K17 p (two_rows p N) cnt i dr n = None.
Proof.
  intros Hp HN. set (q := (p - 1) * (p - 1)) in *. assert (Hq : 2 ^ 32 <= q < 2 ^ 36) by (unfold q; nia).
  induction cnt as [|cnt IH]; intros i dr n Hi HL H1 HE HB; [assert (i = S N) by lia; subst i; nia|].
  assert (HiN : (i < N)%nat) by (destruct (Nat.eq_dec i N); [subst i; lia|lia]). cbn [red_loop].
  assert (Hc : forall dr' b, col_step K17 p (two_rows p N i) i dr = Some (dr', b) -> length dr' = S N /\ (forall j, (i < j < N)%nat -> dv dr' j = 1) /\ dv dr' N = (Z.of_nat i + 1) * q /\ dv dr' N < 2 ^ 63).
  { unfold col_step. rewrite drd_dv by lia. cbn [obind]. rewrite H1 by lia. cbn [Z.eqb]. rewrite Z.rem_small by lia.
    destruct (dwr_ok dr i 1) as (d0 & -> & L0 & V0); [lia|]. cbn [obind Z.eqb]. unfold two_rows. destruct (Nat.ltb_spec i N); [|lia].
    unfold apply_row. rewrite chk_some by (split; nia). cbn [obind]. unfold preloop, UNROLL. cbn [length Nat.modulo Nat.divmod fst snd Nat.sub firstn skipn each].
    unfold add_at, fix_at, kfix, kmul, kadd. cbn [fst snd]. rewrite drd_dv by lia. cbn [obind]. rewrite V0, Nat.eqb_refl.
    rewrite chk_some by lia. cbn [obind]. rewrite chk_some by lia. cbn [obind].
    destruct (dwr_ok d0 i (1 + (p - 1) * 1)) as (d1 & -> & L1 & V1); [lia|]. cbn [obind]. rewrite drd_dv by lia. cbn [obind]. rewrite V1, Nat.eqb_refl.
    destruct (dwr_ok d1 i (1 + (p - 1) * 1)) as (d2 & -> & L2 & V2); [lia|]. cbn [obind]. rewrite drd_dv by lia. cbn [obind]. rewrite V2, V1, V0.
    destruct (Nat.eqb_spec N i); [lia|]. fold q. rewrite chk_some by lia. cbn [obind].
    destruct (chk 64 (dv dr N + q)) as [x|] eqn:Ex; [|discriminate]. cbn [obind]. unfold chk in Ex.
    destruct (Z.leb_spec (- 2 ^ (64 - 1)) (dv dr N + q)); destruct (Z.ltb_spec (dv dr N + q) (2 ^ (64 - 1))); cbn in Ex; try discriminate. injection Ex as <-.
    destruct (dwr_ok d2 N (dv dr N + q)) as (d3 & -> & L3 & V3); [lia|]. cbn [obind]. rewrite drd_dv by lia. cbn [obind]. rewrite V3, Nat.eqb_refl.
    destruct (dwr_ok d3 N (dv dr N + q)) as (d4 & -> & L4 & V4); [lia|]. cbn [obind blocks].
    destruct (dwr_ok d4 i 0) as (d5 & -> & L5 & V5); [lia|]. cbn [obind]. intros dr' b [= <- <-]. split; [lia|]. split.
    - intros j Hj. rewrite V5, V4, V3, V2, V1, V0. destruct (Nat.eqb_spec j i); [lia|]. destruct (Nat.eqb_spec j N); [lia|]. apply H1. lia.
    - rewrite V5, V4, Nat.eqb_refl. destruct (Nat.eqb_spec N i); [lia|]. rewrite HE in *. split; [ring|]. change (64 - 1) with 63 in *. lia. }
  destruct (col_step K17 p (two_rows p N i) i dr) as [[dr' b]|] eqn:Ec; [|reflexivity]. cbn [obind fst snd]. destruct (Hc dr' b eq_refl) as (L' & D1 & D2 & D3).
  apply IH; [lia|assumption|intros j Hj; apply D1; lia|rewrite Nat2Z.inj_succ; unfold Z.succ; assumption|assumption].
Qed.
Theorem C18_wide_matrix_refuted : forall p, 2 ^ 16 < p < 2 ^ 18 -> exists ncols pivs dr,
  Z.of_nat ncols < 2 ^ 32 /\ pivots_ok p ncols pivs /\ length dr = ncols /\ (forall j, 0 <= dv dr j < p) /\
  reduce_known K17 p pivs 0 ncols 0 dr = None.
Proof.
  intros p Hp. destruct (Z_of_nat_complete (2 ^ 31) ltac:(discriminate)) as (N & HN). symmetry in HN.
  exists (S N), (two_rows p N), (repeat 1 N ++ [0]). split; [rewrite Nat2Z.inj_succ, HN; reflexivity|]. split; [apply two_rows_ok; lia|].
  assert (HL : length (repeat 1 N ++ [0]) = S N) by (rewrite app_length, repeat_length; cbn; lia).
  assert (HV : forall j, dv (repeat 1 N ++ [0]) j = if (j <? N)%nat then 1 else 0).
  { intros j. unfold dv. destruct (Nat.ltb_spec j N).
    - rewrite app_nth1 by (rewrite repeat_length; assumption). apply (repeat_spec N 1). apply nth_In. rewrite repeat_length. assumption.
    - rewrite app_nth2 by (rewrite repeat_length; assumption). rewrite repeat_length. destruct (j - N)%nat as [|[|x]]; reflexivity. }
  split; [assumption|]. split; [intros j; rewrite HV; destruct (j <? N)%nat; lia|].
  assert (R : red_loop K17 p (two_rows p N) (S N - 0) 0 (repeat 1 N ++ [0]) 0 = None).
  { apply (two_rows_overflow p N Hp).
    - rewrite HN. nia.
    - lia.
    - assumption.
    - intros j Hj. rewrite HV. destruct (Nat.ltb_spec j N); [reflexivity|lia].
    - rewrite HV, Nat.ltb_irrefl. reflexivity.
    - rewrite HV, Nat.ltb_irrefl. reflexivity. }
  unfold reduce_known. rewrite R. reflexivity.
Qed.
Print Assumptions C18_wide_matrix_refuted.

(** C19. The reduced row is the input row minus a combination of the pivot rows, it is zero in every pivot column, and
    it is returned in unique representation (None for the zero row); its leading column has no pivot. *)
Theorem C19_reduction : forall k p ncols ncl dpiv pivs dr dr' o,
  in_class k p -> columns_ok k p ncols -> pivots_ok p ncols pivs -> (dpiv <= ncols)%nat -> length dr = ncols ->
  (forall j, 0 <= dv dr j < p) -> (forall j, (j < dpiv)%nat -> dv dr j = 0) ->
  (forall j, (dpiv <= j < ncl)%nat -> (j < ncols)%nat -> pivs j <> None) ->
  reduce_known k p pivs ncl ncols dpiv dr = Some (dr', o) ->
  let w := match o with Some r => rv r | None => vzero end in
  (forall j, w j = dv dr' j) /\
  span p (pset_of pivs) (fun j => dv dr j - w j) /\
  (forall j, pivs j <> None -> w j = 0) /\
  match o with Some r => canon p r /\ exists c x r', r = (c, x) :: r' /\ pivs c = None /\ (forall j, (j < c)%nat -> rv r j = 0)
             | None => True end.
Proof.
  intros k p ncols ncl dpiv pivs dr dr' o HK HC HP H1 H2 H3 H4 H5 E0 w.
  destruct (reduce_known_ok k p ncols ncl dpiv pivs dr (class_kern k p HK) (columns_room k p ncols HC) HP H1 H2 H3 H4 H5) as (dr1 & o1 & E & L & B & Z1 & ZP & SP & Ho).
  rewrite E0 in E. injection E as <- <-.
  assert (Hw : forall j, w j = dv dr' j). { intros j. unfold w. destruct o as [r|]; [apply Ho|rewrite Ho; reflexivity]. }
  split; [assumption|]. split; [|split].
  - eapply span_eq; [exact SP|]. intros j. rewrite Hw. reflexivity.
  - intros j Hj. rewrite Hw. destruct (Nat.lt_ge_cases j dpiv); [auto|apply ZP; assumption].
  - destruct o as [r|]; [|exact I]. destruct Ho as (Hne & C & V & T). split; [assumption|]. destruct r as [|[c x] r']; [contradiction|].
    exists c, x, r'. split; [reflexivity|]. split; [apply (T (c, x)); left; reflexivity|]. apply (canon_lead p r' (c, x)). assumption.
Qed.
Print Assumptions C19_reduction.

(** C46. Normalisation of a row of any length with a nonzero first coefficient. *)
Theorem C46_normalize_row : forall k p c x r, prime p -> in_class k p -> 0 < x < p -> cfs_ok p r ->
  exists r' y, normalize_row k p ((c, x) :: r) = Some ((c, 1) :: r') /\ map fst r' = map fst r /\ cfs_ok p r' /\
  0 < y < p /\ eqp p (y * x) 1 /\ (forall j, eqp p (rv ((c, 1) :: r') j) (y * rv ((c, x) :: r) j)) /\
  (canon p ((c, x) :: r) -> canon p ((c, 1) :: r')).
Proof.
  intros k p c x r HP HK Hx HC. destruct (normalize_row_ok k p (c, x) r HP (class_kern k p HK) Hx) as (r' & y & E & Hy & Hm & M & R & V).
  exists r', y. split; [assumption|]. split; [assumption|]. split.
  - subst r'. intros t Ht. apply in_map_iff in Ht. destruct Ht as (u & <- & Hu). cbn. apply Z.mod_pos_bound. lia.
  - split; [assumption|]. split; [assumption|]. split; [assumption|]. intros C.
    destruct (normalize_canon k p (c, x) r HP (class_kern k p HK) C) as (r2 & y2 & E2 & _ & _ & C2 & _). rewrite E2 in E. injection E as ->. assumption.
Qed.
Print Assumptions C46_normalize_row.
(** The initial normalisation of the input generators does not assign the leading coefficient; it still becomes 1. *)
Theorem C46_normalize_initial : forall k p c x r, prime p -> in_class k p -> 0 < x < p -> cfs_ok p r ->
  normalize_initial k p ((c, x) :: r) = normalize_row k p ((c, x) :: r).
Proof.
  intros k p c x r HP HK Hx HC. unfold normalize_initial, normalize_row. destruct (kinv_ok k p x HP (class_kern k p HK) Hx) as (y & E & Hy & Hm). rewrite E. cbn [obind].
  rewrite scale_row_map. cbn [obind map]. change (scale1 k p y (c, x)) with (c, (x * y) mod p). cbn iota. do 3 f_equal.
  apply (eqp_small p); [apply Z.mod_pos_bound; lia|lia|]. rewrite (eqp_mod p) by lia. rewrite Z.mul_comm. assumption.
Qed.
Print Assumptions C46_normalize_initial.
(** Two rows related in this way span the same line. *)
Theorem C46_same_line : forall k p c x r r', prime p -> in_class k p -> 0 < x < p -> cfs_ok p r ->
  normalize_row k p ((c, x) :: r) = Some r' -> same_span p (fun v => v = rv ((c, x) :: r)) (fun v => v = rv r').
Proof.
  intros k p c x r r' HP HK Hx HC E. destruct (C46_normalize_row k p c x r HP HK Hx HC) as (r2 & y & E2 & _ & _ & Hy & Hm & V & _). rewrite E in E2. injection E2 as ->.
  intros v. split; apply span_mono; intros u ->.
  - eapply span_eq with (u := fun j => x * rv ((c, 1) :: r2) j); [apply span_scale, span_in; reflexivity|]. intros j. rewrite V, Z.mul_assoc, (Z.mul_comm x y), Hm. exists 0. ring.
  - eapply span_eq with (u := fun j => y * rv ((c, x) :: r) j); [apply span_scale, span_in; reflexivity|]. intros j. symmetry. apply V.
Qed.
Print Assumptions C46_same_line.

(** C53. The vectorised branches compute the same dense row as the scalar branch, for every row length, every lane
    width w and every grouping of the lanes of a block that covers each position once. *)
Theorem C53_simd : forall w groups k p n c r e dr, (0 < w)%nat -> Permutation (concat groups) (seq 0 w) ->
  in_class k p -> columns_ok k p (length dr) -> (n <= length dr)%nat -> pivot_row p (length dr) c r -> 0 < e < p ->
  (forall j, 0 <= dv dr j < kb k p n) ->
  apply_row_simd w groups k p e r dr = apply_row k p e r dr /\ apply_row k p e r dr <> None.
Proof.
  intros w groups k p n c r e dr Hw HP HK HC Hn Hr He Hb. pose proof (class_kern k p HK) as HK'.
  assert (HR : kroom k p (S n)) by (eapply kroom_le; [|eassumption|apply columns_room; eassumption]; lia).
  split.
  - apply simd_same; auto.
    + pose proof (kern_pp k p HK'). lia.
    + apply Hr.
    + intros t Ht. split; [apply Hr; assumption|].
      destruct (pt_ok k p n e (snd t) (dv dr (fst t)) HK' HR He) as (d' & -> & _); [apply Hr; assumption|apply Hb|discriminate].
  - destruct (apply_row_ok k p (length dr) n c r e dr HK' HR Hr eq_refl He Hb) as (dr' & -> & _). discriminate.
Qed.
Print Assumptions C53_simd.
(** The groupings used in the sources. *)
Definition avx2_31 := [[1;3;5;7];[0;2;4;6]]%nat.
Definition avx512_31 := [[1;3;5;7;9;11;13;15];[0;2;4;6;8;10;12;14]]%nat.
Definition neon_31 := [[0;1];[2;3];[4;5];[6;7]]%nat.
Definition avx2_16 := [[1;5;9;13];[3;7;11;15];[0;4;8;12];[2;6;10;14]]%nat.
Definition avx2_8 := map (fun s => [s; s + 8; s + 16; s + 24]%nat) [0;2;4;6;1;3;5;7]%nat.
Lemma perm_by_count (a b : list nat) : forallb (fun x => (count_occ Nat.eq_dec a x =? count_occ Nat.eq_dec b x)%nat) (a ++ b) = true -> Permutation a b.
Proof.
  intros H. apply (Permutation_count_occ Nat.eq_dec). intros x. rewrite forallb_forall in H.
  destruct (in_dec Nat.eq_dec x (a ++ b)) as [Hin|Hn]; [apply Nat.eqb_eq, H; assumption|].
  rewrite (proj1 (count_occ_not_In Nat.eq_dec a x)), (proj1 (count_occ_not_In Nat.eq_dec b x)); auto; intros Hx; apply Hn, in_or_app; auto.
Qed.
Example C53_groups : Permutation (concat avx2_31) (seq 0 8) /\ Permutation (concat avx512_31) (seq 0 16) /\ Permutation (concat neon_31) (seq 0 8) /\
  Permutation (concat avx2_16) (seq 0 16) /\ Permutation (concat avx2_8) (seq 0 32).
Proof. repeat split; apply perm_by_count; vm_compute; reflexivity. Qed.

(** C20. Any schedule: no undefined operation, one monic pivot row per column with its leading entry there, the known
    pivots are kept, every pivot row is a combination of the rows of the matrix. *)
Theorem C20_safe : forall k p ncl ncols rr tr sched, prime p -> in_class k p -> columns_ok k p ncols -> matrix_ok p ncl ncols rr tr ->
  exists s, sys_run k p ncl ncols sched (init_shared rr tr) = Some s /\
  pivots_ok p ncols (sh_pivs s) /\ (forall c r, rr c = Some r -> sh_pivs s c = Some r) /\
  (forall c r, sh_pivs s c = Some r -> span p (gens rr tr) (rv r)).
Proof.
  intros k p ncl ncols rr tr sched HP HK HC HM. destruct (run_ok k p ncl ncols rr tr sched HP (class_kern k p HK) (columns_room k p ncols HC) HM) as (s & E & (H1 & H2 & H3 & _)).
  exists s. auto.
Qed.
Print Assumptions C20_safe.
(** When all rows are finished no row is lost. *)
Theorem C20_row_space : forall k p ncl ncols rr tr sched s, prime p -> in_class k p -> columns_ok k p ncols -> matrix_ok p ncl ncols rr tr ->
  sys_run k p ncl ncols sched (init_shared rr tr) = Some s -> forallb finished (sh_rows s) = true ->
  same_span p (gens rr tr) (pset_of (sh_pivs s)).
Proof.
  intros k p ncl ncols rr tr sched s HP HK HC HM E HF. destruct (run_ok k p ncl ncols rr tr sched HP (class_kern k p HK) (columns_room k p ncols HC) HM) as (s' & E' & HI).
  assert (s' = s) by congruence. subst s'. eapply finished_span; eassumption.
Qed.
Print Assumptions C20_row_space.
(** Every row finishes after a bounded number of its own steps whatever the other rows do: no livelock. *)
Theorem C20_terminates : forall k p ncl ncols rr tr sched s, prime p -> in_class k p -> columns_ok k p ncols -> matrix_ok p ncl ncols rr tr ->
  sys_run k p ncl ncols sched (init_shared rr tr) = Some s ->
  (forall t, (t < length tr)%nat -> ((ncols + 2) * (ncols + 3) <= count_occ Nat.eq_dec sched t)%nat) ->
  forallb finished (sh_rows s) = true.
Proof.
  intros k p ncl ncols rr tr sched s HP HK HC HM E HT. destruct (run_ok k p ncl ncols rr tr sched HP (class_kern k p HK) (columns_room k p ncols HC) HM) as (s' & E' & HI).
  assert (s' = s) by congruence. subst s'. eapply enough_steps; [eassumption|]. intros t Ht. specialize (HT t Ht). unfold budget. nia.
Qed.
Print Assumptions C20_terminates.

(** The rows returned after inter-reduction form a reduced echelon form of the part of the row space that is zero on
    the columns of the known pivots; together with the known pivots they span the row space of the matrix. *)
Lemma rows_desc_in ncl Q cnt r : In r (rows_desc ncl Q cnt) <-> exists c, (ncl <= c < ncl + cnt)%nat /\ Q c = Some r.
Proof.
  induction cnt as [|cnt IH]; cbn [rows_desc].
  - split; [intros []|intros (c & Hc & _); lia].
  - assert (G : In r (rows_desc ncl Q cnt) \/ Q (ncl + cnt)%nat = Some r <-> exists c, (ncl <= c < ncl + S cnt)%nat /\ Q c = Some r).
    { rewrite IH. split.
      - intros [(c & Hc & E)|E]; [exists c; split; [lia|assumption]|]. exists (ncl + cnt)%nat. split; [lia|assumption].
      - intros (c & Hc & E). destruct (Nat.eq_dec c (ncl + cnt)) as [->|]; [right; assumption|]. left. exists c. split; [lia|assumption]. }
    rewrite <- G. destruct (Q (ncl + cnt)%nat) as [q|]; cbn [In].
    + split; [intros [->|H]; auto|intros [H|[= ->]]; auto].
    + split; [auto|intros [H|H]; [assumption|discriminate]].
Qed.
Theorem C20_echelon : forall k p ncl ncols rr tr sched, prime p -> in_class k p -> columns_ok k p ncols -> matrix_ok p ncl ncols rr tr ->
  (forall t, (t < length tr)%nat -> ((ncols + 2) * (ncols + 3) <= count_occ Nat.eq_dec sched t)%nat) ->
  exists l, echelon k p ncl ncols rr tr sched = Some l /\
  same_span p (gens rr tr) (gens rr l) /\
  (forall v, span p (fun v => exists r, In r l /\ v = rv r) v <-> span p (gens rr tr) v /\ forall c, (c < ncl)%nat -> eqp p (v c) 0) /\
  (forall r, In r l -> canon p r /\ exists c, (ncl <= c)%nat /\ pivot_row p ncols c r /\ forall r', In r' l -> r' <> r -> rv r' c = 0) /\ NoDup l.
Proof.
  intros k p ncl ncols rr tr sched HP HK HC HM HT. pose proof (class_kern k p HK) as HK'. pose proof (columns_room k p ncols HC) as HR.
  destruct (C20_safe k p ncl ncols rr tr sched HP HK HC HM) as (s & E & _). pose proof (C20_terminates k p ncl ncols rr tr sched s HP HK HC HM E HT) as HF.
  destruct (echelon_core k p ncl ncols rr tr sched HP HK' HR HM s E HF) as (Q & EQ & (Q1 & Q2) & Q3 & Q4 & Q5).
  unfold echelon. rewrite E. cbn [obind]. rewrite HF, EQ. eexists. split; [reflexivity|].
  assert (Hle : (ncl <= ncols)%nat) by apply HM.
  assert (Hin : forall r, In r (rows_desc ncl Q (ncols - ncl)) <-> exists c, Q c = Some r).
  { intros r. rewrite rows_desc_in. split; [intros (c & _ & H); eauto|]. intros (c & H). exists c. split; [|assumption]. specialize (Q3 c). rewrite H in Q3. specialize (Q3 ltac:(discriminate)). lia. }
  assert (Hset : forall v, pset_of Q v <-> exists r, In r (rows_desc ncl Q (ncols - ncl)) /\ v = rv r).
  { intros v. split; [intros (c & r & H & ->); exists r; split; [apply Hin; eauto|reflexivity]|]. intros (r & H & ->). apply Hin in H. destruct H as (c & H). exists c, r. auto. }
  split; [|split; [|split]].
  - intros v. rewrite (Q5 v). split; apply span_mono; intros u [Hu|Hu]; apply span_in; [left; assumption|right; apply Hset; assumption|left; assumption|right; apply Hset; assumption].
  - intros v. rewrite <- (Q4 v). split; apply span_mono; intros u Hu; apply span_in, Hset; assumption.
  - intros r Hr. apply Hin in Hr. destruct Hr as (c & Ec). split; [apply (Q2 c r Ec)|]. exists c. split; [apply Q3; congruence|]. split; [apply Q1; assumption|].
    intros r' Hr' Hne. apply Hin in Hr'. destruct Hr' as (c' & Ec'). apply (Q2 c' r' Ec'); [|congruence]. intros ->. congruence.
  - generalize (ncols - ncl)%nat as cnt. induction cnt as [|cnt IH]; cbn [rows_desc]; [constructor|]. destruct (Q (ncl + cnt)%nat) as [r|] eqn:Er; [|assumption].
    constructor; [|assumption]. rewrite rows_desc_in. intros (c & Hc & Ec).
    destruct (Q1 _ _ Er) as (_ & _ & _ & r1 & E1 & _). destruct (Q1 _ _ Ec) as (_ & _ & _ & r2 & E2 & _). rewrite E1 in E2. injection E2 as E2 _. lia.
Qed.
Print Assumptions C20_echelon.

(** C21. The list of new rows does not depend on the schedule. *)
Theorem C21_deterministic : forall k p ncl ncols rr tr s1 s2 l1 l2, prime p -> in_class k p -> columns_ok k p ncols -> matrix_ok p ncl ncols rr tr ->
  echelon k p ncl ncols rr tr s1 = Some l1 -> echelon k p ncl ncols rr tr s2 = Some l2 -> l1 = l2.
Proof.
  intros k p ncl ncols rr tr s1 s2 l1 l2 HP HK HC HM E1 E2. pose proof (class_kern k p HK) as HK'. pose proof (columns_room k p ncols HC) as HR.
  assert (G : forall s l, echelon k p ncl ncols rr tr s = Some l -> exists Q, l = rows_desc ncl Q (ncols - ncl) /\ reduced_family p ncols Q /\
    (forall v, span p (pset_of Q) v <-> span p (gens rr tr) v /\ forall c, (c < ncl)%nat -> eqp p (v c) 0)).
  { intros sc l E. unfold echelon in E. destruct (sys_run k p ncl ncols sc (init_shared rr tr)) as [s|] eqn:Es; cbn [obind] in E; [|discriminate].
    destruct (forallb finished (sh_rows s)) eqn:HF; [|discriminate].
    destruct (echelon_core k p ncl ncols rr tr sc HP HK' HR HM s Es HF) as (Q & EQ & Q1 & _ & Q4 & _). rewrite EQ in E. injection E as <-. exists Q. auto. }
  destruct (G s1 l1 E1) as (Q1 & -> & R1 & S1). destruct (G s2 l2 E2) as (Q2 & -> & R2 & S2).
  assert (HE : forall c, Q1 c = Q2 c). { apply (reduced_unique p ncols); auto; [apply HK|]. intros v. rewrite (S1 v), (S2 v). reflexivity. }
  generalize (ncols - ncl)%nat as cnt. induction cnt as [|cnt IH]; cbn [rows_desc]; [reflexivity|]. rewrite HE, IH. reflexivity.
Qed.
Print Assumptions C21_deterministic.

(** Concrete instances: a matrix with two reducers and three rows over the field with 251 elements; two schedules. In the
    second one two rows race for the same column. *)
Definition ex_rr : nat -> option srow := fun i => match i with
  | O => Some [(0%nat, 1); (2%nat, 5); (3%nat, 7)] | S O => Some [(1%nat, 1); (2%nat, 250); (4%nat, 100)] | _ => None end.
Definition ex_tr : list srow := [[(0%nat, 3); (2%nat, 1); (4%nat, 9)]; [(0%nat, 6); (1%nat, 1); (3%nat, 4); (4%nat, 2)]; [(1%nat, 200); (2%nat, 17); (4%nat, 1)]].
Definition sched_seq := repeat 0%nat 60 ++ repeat 1%nat 60 ++ repeat 2%nat 60.
Definition sched_rr := concat (repeat [2; 0; 1]%nat 60).
Example C20_ex : exists l, echelon K8 251 2 5 ex_rr ex_tr sched_seq = Some l /\ echelon K8 251 2 5 ex_rr ex_tr sched_rr = Some l /\ length l = 3%nat /\
  echelon K31 251 2 5 ex_rr ex_tr sched_rr = Some l /\ echelon K17 251 2 5 ex_rr ex_tr sched_seq = Some l.
Proof. eexists. vm_compute. repeat split. Qed.
Example C20_ex_hyp : prime 251 /\ in_class K8 251 /\ columns_ok K8 251 5 /\ matrix_ok 251 2 5 ex_rr ex_tr /\
  (forall t, (t < length ex_tr)%nat -> ((5 + 2) * (5 + 3) <= count_occ Nat.eq_dec sched_rr t)%nat).
Proof.
  split; [exact prime_251|]. split; [unfold in_class; lia|]. split; [right; vm_compute; discriminate|]. split.
  - split; [lia|]. split; [|split].
    + intros [|[|c]]; cbn; split; try lia; try discriminate. intros H. contradiction.
    + intros [|[|c]] r; cbn; intros [= <-].
      all: split; [repeat (constructor; [cbn; lia|]); constructor|split; [intros t Ht|split; [intros t Ht|eexists; split; [reflexivity|intros t Ht]]]].
      all: cbn in Ht; repeat (destruct Ht as [<-|Ht]; [cbn; lia|]); destruct Ht.
    + intros r Hr. cbn in Hr. repeat (destruct Hr as [<-|Hr]; [
        split; [repeat (constructor; [cbn; lia|]); constructor|split; [intros t Ht|split; [intros t Ht|eexists _, _; split; [reflexivity|intros t Ht]]]];
        cbn in Ht; repeat (destruct Ht as [<-|Ht]; [cbn; lia|]); destruct Ht|]). destruct Hr.
  - intros [|[|[|t]]] Ht; cbn in Ht; try lia; vm_compute; lia.
Qed.
(** a reduction that subtracts pivots and leaves two entries, and one that vanishes *)
Example C19_ex : reduce_known K31 251 ex_rr 2 5 0 [3; 1; 0; 0; 9] = Some ([0; 0; 237; 230; 160], Some [(2%nat, 237); (3%nat, 230); (4%nat, 160)]) /\
  reduce_known K8 251 ex_rr 2 5 0 [2; 0; 10; 14; 0] = Some ([0; 0; 0; 0; 0], None).
Proof. split; vm_compute; reflexivity. Qed.
Example C46_ex : normalize_row K16 65521 [(3%nat, 7); (5%nat, 14); (6%nat, 1); (9%nat, 65520); (11%nat, 2)] = Some [(3%nat, 1); (5%nat, 2); (6%nat, 56161); (9%nat, 9360); (11%nat, 46801)].
Proof. vm_compute. reflexivity. Qed.
