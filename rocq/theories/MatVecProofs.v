(** The matrix-vector products of FGLM are exact: both kernels compute the product modulo p. *)
From Coq Require Import ZArith Arith List Bool Lia Znumtheory Setoid Morphisms.
From Verif Require Import LinSpec FpSpec FglmSpec ModInvModel NmodModel BmModel FglmModel.
Import ListNotations.
Open Scope Z_scope.

(** sums *)
Lemma sumn_ext n f g : (forall i, (i < n)%nat -> f i = g i) -> sumn n f = sumn n g.
Proof. induction n as [|n IH]; intros H; cbn [sumn]; [reflexivity|]. rewrite IH, H by (intros; auto; lia). reflexivity. Qed.
Lemma sumn_eqp p n f g : (forall i, (i < n)%nat -> eqp p (f i) (g i)) -> eqp p (sumn n f) (sumn n g).
Proof. induction n as [|n IH]; intros H; cbn [sumn]; [reflexivity|]. rewrite IH by (intros; apply H; lia). rewrite (H n) by lia. reflexivity. Qed.
Lemma sumn_zero n : sumn n (fun _ => 0) = 0.
Proof. induction n as [|n IH]; cbn [sumn]; lia. Qed.
Lemma sumn_add n f g : sumn n (fun i => f i + g i) = sumn n f + sumn n g.
Proof. induction n as [|n IH]; cbn [sumn]; lia. Qed.
Lemma sumn_scal n c f : sumn n (fun i => c * f i) = c * sumn n f.
Proof. induction n as [|n IH]; cbn [sumn]; lia. Qed.
Lemma sumn_scal_r n c f : sumn n (fun i => f i * c) = sumn n f * c.
Proof. induction n as [|n IH]; cbn [sumn]; lia. Qed.
Lemma sumn_S n f : sumn (S n) f = f O + sumn n (fun i => f (S i)).
Proof. induction n as [|n IH]; [cbn [sumn]; lia|]. change (sumn (S n) f + f (S n) = f O + (sumn n (fun i => f (S i)) + f (S n))). rewrite IH. lia. Qed.
Lemma sumn_app n m f : sumn (n + m) f = sumn n f + sumn m (fun i => f (n + i)%nat).
Proof. induction m as [|m IH]; [rewrite Nat.add_0_r; cbn [sumn]; lia|]. rewrite Nat.add_succ_r. cbn [sumn]. rewrite IH. lia. Qed.
Lemma sumn_swap n m f : sumn n (fun i => sumn m (fun j => f i j)) = sumn m (fun j => sumn n (fun i => f i j)).
Proof. induction n as [|n IH]; cbn [sumn]; [symmetry; apply sumn_zero|]. rewrite IH, sumn_add. reflexivity. Qed.
Lemma sumn_rev n f : sumn n f = sumn n (fun i => f (n - 1 - i)%nat).
Proof.
  induction n as [|n IH]; [reflexivity|]. rewrite (sumn_S n (fun i => f (S n - 1 - i)%nat)). cbn [sumn]. replace (S n - 1 - 0)%nat with n by lia. rewrite Z.add_comm. f_equal. rewrite IH. apply sumn_ext. intros i Hi. f_equal. lia.
Qed.
Lemma sumn_delta n k f : (k < n)%nat -> sumn n (fun i => if (i =? k)%nat then f i else 0) = f k.
Proof.
  induction n as [|n IH]; intros H; [lia|]. cbn [sumn]. destruct (Nat.eqb_spec n k) as [->|N].
  - rewrite (sumn_ext k _ (fun _ => 0)); [rewrite sumn_zero; lia|]. intros i Hi. destruct (Nat.eqb_spec i k); [lia|reflexivity].
  - rewrite IH by lia. lia.
Qed.
Lemma sumn_zero_ext n f : (forall i, (i < n)%nat -> f i = 0) -> sumn n f = 0.
Proof. intros H. rewrite (sumn_ext n f (fun _ => 0) H). apply sumn_zero. Qed.
Lemma sumn_more n m f : (n <= m)%nat -> (forall i, (n <= i < m)%nat -> f i = 0) -> sumn m f = sumn n f.
Proof. intros L H. replace m with (n + (m - n))%nat by lia. rewrite sumn_app, (sumn_zero_ext (m - n)); [lia|]. intros i Hi. apply H. lia. Qed.

(** inner products of lists *)
Definition dot (n : nat) (a b : list Z) : Z := sumn n (fun i => nth i a 0 * nth i b 0).
Lemma dot_cons n x a y b : dot (S n) (x :: a) (y :: b) = x * y + dot n a b.
Proof. unfold dot. rewrite sumn_S. reflexivity. Qed.
Lemma dot_split n m a b : dot (n + m) a b = dot n a b + dot m (skipn n a) (skipn n b).
Proof.
  unfold dot. rewrite sumn_app. f_equal. apply sumn_ext. intros i _.
  assert (K : forall l : list Z, nth i (skipn n l) 0 = nth (n + i) l 0). { induction n as [|n IH]; intros l; [reflexivity|]. destruct l; [destruct i; reflexivity|]. cbn [skipn]. rewrite IH. reflexivity. }
  rewrite !K. reflexivity.
Qed.

Definition small (p : Z) (l : list Z) : Prop := forall c, In c l -> 0 <= c < p.
Lemma small_nth p l i : 0 < p -> small p l -> 0 <= nth i l 0 < p.
Proof. intros Hp H. destruct (nth_in_or_default i l 0) as [I|I]; [auto|rewrite I; lia]. Qed.
Lemma small_cons p x l : small p (x :: l) -> 0 <= x < p /\ small p l.
Proof. intros H. split; [apply H; left; reflexivity|intros c I; apply H; right; exact I]. Qed.
Lemma small_skipn p n l : small p l -> small p (skipn n l).
Proof. intros H c I. apply H. rewrite <- (firstn_skipn n l). apply in_or_app. right. exact I. Qed.
Lemma small_firstn p n l : small p l -> small p (firstn n l).
Proof. intros H c I. apply H. rewrite <- (firstn_skipn n l). apply in_or_app. left. exact I. Qed.

Section K.
Variable p : Z.
Hypothesis P2 : 2 <= p.
Hypothesis PU : p < 1518500213.
Notation "a =p b" := (eqp p a b) (at level 70).

(** the scalar kernel *)
Lemma sq_bound : p * p < 2 ^ 61 + 2 ^ 60.
Proof using P2 PU. assert (p * p <= 1518500212 * 1518500212) by nia. lia. Qed.
Lemma ck64_ok x : - 2 ^ 63 <= x < 2 ^ 63 -> ck64 x = Some x.
Proof using. intros H. unfold ck64. destruct (Z.leb_spec (- 2 ^ 63) x), (Z.ltb_spec x (2 ^ 63)); try lia. reflexivity. Qed.
Lemma scalar_loop_ok row : forall v prod, length row = length v -> small p row -> small p v -> 0 <= prod < p * p ->
  exists r, scalar_loop (p * p) row v prod = Some r /\ 0 <= r < p * p /\ r =p prod - dot (length row) row v.
Proof using P2 PU.
  pose proof sq_bound as SB. induction row as [|a row IH]; intros v prod L Hr Hv Hs; destruct v as [|b v]; try discriminate L.
  - exists prod. cbn [scalar_loop length]. split; [reflexivity|]. split; [exact Hs|]. unfold dot. cbn [sumn]. rewrite Z.sub_0_r. reflexivity.
  - injection L as L. apply small_cons in Hr as [Ha Hr]. apply small_cons in Hv as [Hb Hv]. cbn [scalar_loop length].
    assert (T : 0 <= a * b < p * p) by nia. rewrite (ck64_ok (a * b)) by lia. unfold obind at 1. rewrite (ck64_ok (prod - a * b)) by lia. unfold obind at 1.
    assert (F : 0 <= fix_sign (p * p) (prod - a * b) < p * p) by (unfold fix_sign; destruct (Z.ltb_spec (prod - a * b) 0); lia).
    assert (E : fix_sign (p * p) (prod - a * b) =p prod - a * b) by (unfold fix_sign; destruct (prod - a * b <? 0); [exists p; ring|reflexivity]).
    destruct (IH v _ L Hr Hv F) as (r & Er & R & Q). exists r. split; [exact Er|]. split; [exact R|]. rewrite Q, E, dot_cons. exists 0. ring.
Qed.
Lemma scalar_row_ok row v : length row = length v -> small p row -> small p v -> scalar_row p row v = Some (dot (length row) row v mod p).
Proof using P2 PU.
  intros L Hr Hv. pose proof sq_bound as SB. unfold scalar_row. rewrite (ck64_ok (p * p)) by lia. unfold obind at 1. destruct (scalar_loop_ok row v 0 L Hr Hv ltac:(nia)) as (r & E & R & Q). rewrite E. unfold obind. f_equal. apply eqp_iff_mod; [lia|].
  transitivity (- r); [unfold fix_sign; destruct (- r <? 0); [exists p; ring|reflexivity]|]. rewrite Q. exists 0. ring.
Qed.

(** the AVX2 kernel *)
Lemma eight_sq : 8 * ((p - 1) * (p - 1)) < 2 ^ 64.
Proof using P2 PU. assert ((p - 1) * (p - 1) <= 1518500211 * 1518500211) by nia. lia. Qed.
Definition lane_sum (l : nat) (row v : list Z) : Z :=
  let f i := nth i row 0 * nth i v 0 in
  (f (2 * l)%nat + f (S (2 * l))) + (f (8 + 2 * l)%nat + f (S (8 + 2 * l))) + (f (16 + 2 * l)%nat + f (S (16 + 2 * l))) + (f (24 + 2 * l)%nat + f (S (24 + 2 * l))).
Lemma lane_ok l row v : small p row -> small p v -> lane l row v = lane_sum l row v /\ 0 <= lane_sum l row v < 2 ^ 64.
Proof using P2 PU.
  intros Hr Hv. pose proof eight_sq as ES. assert (B : forall i, 0 <= nth i row 0 * nth i v 0 <= (p - 1) * (p - 1)).
  { intros i. pose proof (small_nth p row i ltac:(lia) Hr). pose proof (small_nth p v i ltac:(lia) Hv). nia. }
  unfold lane, lane_sum. cbn [fold_left]. change (8 * 0 + 2 * l)%nat with (2 * l)%nat. change (8 * 1)%nat with 8%nat. change (8 * 2)%nat with 16%nat. change (8 * 3)%nat with 24%nat.
  pose proof (B (2 * l)%nat). pose proof (B (S (2 * l))). pose proof (B (8 + 2 * l)%nat). pose proof (B (S (8 + 2 * l))). pose proof (B (16 + 2 * l)%nat). pose proof (B (S (16 + 2 * l))). pose proof (B (24 + 2 * l)%nat). pose proof (B (S (24 + 2 * l))). unfold wrap64.
  set (a0 := nth (2 * l) row 0 * nth (2 * l) v 0) in *. set (a1 := nth (S (2 * l)) row 0 * nth (S (2 * l)) v 0) in *. set (a2 := nth (8 + 2 * l) row 0 * nth (8 + 2 * l) v 0) in *. set (a3 := nth (S (8 + 2 * l)) row 0 * nth (S (8 + 2 * l)) v 0) in *. set (a4 := nth (16 + 2 * l) row 0 * nth (16 + 2 * l) v 0) in *. set (a5 := nth (S (16 + 2 * l)) row 0 * nth (S (16 + 2 * l)) v 0) in *. set (a6 := nth (24 + 2 * l) row 0 * nth (24 + 2 * l) v 0) in *. set (a7 := nth (S (24 + 2 * l)) row 0 * nth (S (24 + 2 * l)) v 0) in *.
  set (w := (p - 1) * (p - 1)) in *. rewrite (Z.mod_small (a0 + a1)), (Z.mod_small (a2 + a3)), (Z.mod_small (a4 + a5)), (Z.mod_small (a6 + a7)) by lia. rewrite (Z.mod_small (0 + (a0 + a1))) by lia. rewrite (Z.mod_small (0 + (a0 + a1) + (a2 + a3))) by lia. rewrite (Z.mod_small (0 + (a0 + a1) + (a2 + a3) + (a4 + a5))) by lia. rewrite Z.mod_small by lia. split; lia.
Qed.
Lemma dot32 row v : dot 32 row v = lane_sum 0 row v + lane_sum 1 row v + lane_sum 2 row v + lane_sum 3 row v.
Proof using. unfold dot, lane_sum. cbn [sumn Nat.add Nat.mul]. ring. Qed.
Lemma acc_blocks_ok l : forall quo row v lo hi k, small p row -> small p v -> (k + quo < 2 ^ 27)%Z -> 0 <= lo <= k * 2 ^ 32 -> 0 <= hi <= k * 2 ^ 32 -> 0 <= k -> quo = quo ->
  forall q, quo = Z.of_nat q ->
  exists lo' hi', acc_blocks q l row v lo hi = (lo', hi') /\ 0 <= lo' <= (k + quo) * 2 ^ 32 /\ 0 <= hi' <= (k + quo) * 2 ^ 32 /\
    lo' + hi' * 2 ^ 32 = lo + hi * 2 ^ 32 + sumn q (fun b => lane_sum l (skipn (32 * b) row) (skipn (32 * b) v)).
Proof using P2 PU.
  intros quo row v lo hi k Hr Hv Hk Hlo Hhi K0 _ q. revert quo row v lo hi k Hr Hv Hk Hlo Hhi K0. induction q as [|q IH]; intros quo row v lo hi k Hr Hv Hk Hlo Hhi K0 Eq.
  - exists lo, hi. cbn [acc_blocks sumn]. subst quo. rewrite !Z.add_0_r. split; [reflexivity|]. split; [exact Hlo|]. split; [exact Hhi|reflexivity].
  - cbn [acc_blocks]. destruct (lane_ok l row v Hr Hv) as [El Bl]. rewrite El. set (r := lane_sum l row v) in *.
    pose proof (Z.mod_pos_bound r (2 ^ 32) ltac:(lia)). assert (D : 0 <= r / 2 ^ 32 < 2 ^ 32). { split; [apply Z.div_pos; lia|]. apply Z.div_lt_upper_bound; [lia|]. change (2 ^ 32 * 2 ^ 32) with (2 ^ 64). lia. }
    assert (X : (k + 1) * 2 ^ 32 < 2 ^ 64) by (change (2 ^ 64) with (2 ^ 32 * 2 ^ 32); nia).
    assert (W1 : wrap64 (lo + r mod 2 ^ 32) = lo + r mod 2 ^ 32) by (unfold wrap64; apply Z.mod_small; lia). assert (W2 : wrap64 (hi + r / 2 ^ 32) = hi + r / 2 ^ 32) by (unfold wrap64; apply Z.mod_small; lia). rewrite W1, W2.
    destruct (IH (quo - 1) (skipn 32 row) (skipn 32 v) (lo + r mod 2 ^ 32) (hi + r / 2 ^ 32) (k + 1)) as (lo' & hi' & E & L1 & L2 & Es); try lia; try (apply small_skipn; assumption).
    exists lo', hi'. split; [exact E|]. replace (k + 1 + (quo - 1)) with (k + quo) in * by lia. split; [exact L1|]. split; [exact L2|]. rewrite Es, sumn_S. change (skipn (32 * 0) row) with row. change (skipn (32 * 0) v) with v. fold r.
    assert (Ed : r = 2 ^ 32 * (r / 2 ^ 32) + r mod 2 ^ 32) by (apply Z.div_mod; lia).
    assert (Es' : sumn q (fun b => lane_sum l (skipn (32 * b) (skipn 32 row)) (skipn (32 * b) (skipn 32 v))) = sumn q (fun b => lane_sum l (skipn (32 * S b) row) (skipn (32 * S b) v))).
    { apply sumn_ext. intros b _. assert (K : forall (n m : nat) (x : list Z), skipn n (skipn m x) = skipn (m + n) x). { intros n m. induction m as [|m IHm]; intros x; [reflexivity|]. destruct x; [rewrite !skipn_nil; reflexivity|]. cbn [skipn Nat.add]. apply IHm. } rewrite !K. replace (32 + 32 * b)%nat with (32 * S b)%nat by lia. reflexivity. }
    rewrite Es'. lia.
Qed.
Lemma red32_ok : red32_of p =p 2 ^ 32 /\ 0 <= red32_of p < p.
Proof using P2 PU. unfold red32_of. split; [|apply Z.mod_pos_bound; lia]. rewrite eqp_mod by lia. reflexivity. Qed.
Lemma red64_ok : red64_of p =p 2 ^ 64 /\ 0 <= red64_of p < p.
Proof using P2 PU.
  unfold red64_of. split; [|apply Z.mod_pos_bound; lia]. rewrite eqp_mod by lia. pose proof (Z.mod_pos_bound (2 ^ 63) p ltac:(lia)). unfold wrap32. rewrite (Z.mod_small (2 ^ 63 mod p)) by lia. rewrite Z.mod_small by lia. rewrite eqp_mod by lia. reflexivity.
Qed.
Lemma fold_lane_ok lo hi k : 0 <= lo <= k * 2 ^ 32 -> 0 <= hi <= k * 2 ^ 32 -> 0 <= k < 2 ^ 27 ->
  fold_lane p (red32_of p) (red64_of p) (lo, hi) = (lo + hi * 2 ^ 32) mod p.
Proof using P2 PU.
  intros Hlo Hhi Hk. destruct red32_ok as [E32 B32], red64_ok as [E64 B64]. unfold fold_lane. cbn [fst snd].
  assert (Bh : 0 <= hi / 2 ^ 32 <= k). { split; [apply Z.div_pos; lia|]. apply Z.div_le_upper_bound; lia. } pose proof (Z.mod_pos_bound hi (2 ^ 32) ltac:(lia)) as Bl.
  assert (W1 : wrap64 (hi / 2 ^ 32 * red64_of p) = hi / 2 ^ 32 * red64_of p). { unfold wrap64. apply Z.mod_small. split; [nia|]. assert (hi / 2 ^ 32 * red64_of p <= 2 ^ 27 * 2 ^ 31) by nia. change (2 ^ 27 * 2 ^ 31) with (2 ^ 58) in *. lia. }
  assert (W2 : wrap64 (hi mod 2 ^ 32 * red32_of p) = hi mod 2 ^ 32 * red32_of p). { unfold wrap64. apply Z.mod_small. split; [nia|]. assert (hi mod 2 ^ 32 * red32_of p <= 2 ^ 32 * 2 ^ 31) by nia. change (2 ^ 32 * 2 ^ 31) with (2 ^ 63) in *. lia. }
  rewrite W1, W2. pose proof (Z.mod_pos_bound (hi / 2 ^ 32 * red64_of p) p ltac:(lia)) as M1. pose proof (Z.mod_pos_bound (hi mod 2 ^ 32 * red32_of p) p ltac:(lia)) as M2. assert (k * 2 ^ 32 <= 2 ^ 59) by (change (2 ^ 59) with (2 ^ 27 * 2 ^ 32); nia).
  unfold wrap64. rewrite (Z.mod_small (lo + _)) by lia. rewrite (Z.mod_small (lo + _ + _)) by lia. apply eqp_iff_mod; [lia|]. rewrite !eqp_mod by lia. rewrite E32, E64.
  assert (Ed : hi = 2 ^ 32 * (hi / 2 ^ 32) + hi mod 2 ^ 32) by (apply Z.div_mod; lia). rewrite Ed at 3. exists 0. change (2 ^ 64) with (2 ^ 32 * 2 ^ 32). ring.
Qed.
Lemma tail_gen : forall row v acc, length row = length v -> fold_left (fun a ab => a + (fst ab * snd ab) mod p) (combine row v) acc =p acc + dot (length row) row v.
Proof using P2.
  induction row as [|a row IH]; intros v acc L; destruct v as [|b v]; try discriminate L; [unfold dot; cbn [combine fold_left length sumn]; rewrite Z.add_0_r; reflexivity|]. injection L as L. cbn [combine fold_left length fst snd]. rewrite IH by exact L. rewrite dot_cons, eqp_mod by lia. exists 0. ring.
Qed.
Lemma blocks_dot q row v : dot (32 * q) row v = sumn q (fun b => lane_sum 0 (skipn (32 * b) row) (skipn (32 * b) v) + lane_sum 1 (skipn (32 * b) row) (skipn (32 * b) v) + lane_sum 2 (skipn (32 * b) row) (skipn (32 * b) v) + lane_sum 3 (skipn (32 * b) row) (skipn (32 * b) v)).
Proof using.
  induction q as [|q IH]; [reflexivity|]. replace (32 * S q)%nat with (32 * q + 32)%nat by lia. rewrite dot_split, IH, dot32. reflexivity.
Qed.
Lemma avx_row_ok n row v : length row = length v -> (n <= length row)%nat -> Z.of_nat (length row) < 2 ^ 32 -> small p row -> small p v ->
  avx_row p (red32_of p) (red64_of p) n row v = dot n row v mod p.
Proof using P2 PU.
  intros L Ln LB Hr Hv. pose proof (Nat.div_mod n 32 ltac:(lia)) as Dm. pose proof (Nat.mod_upper_bound n 32 ltac:(lia)) as Mb. unfold avx_row. set (q := (n / 32)%nat) in *. set (r := (n mod 32)%nat) in *.
  assert (Q : Z.of_nat q < 2 ^ 27) by lia.
  assert (LN : forall l, exists s, fold_lane p (red32_of p) (red64_of p) (acc_blocks q l row v 0 0) = s mod p /\ s = sumn q (fun b => lane_sum l (skipn (32 * b) row) (skipn (32 * b) v))).
  { intros l. destruct (acc_blocks_ok l (Z.of_nat q) row v 0 0 0 Hr Hv ltac:(lia) ltac:(lia) ltac:(lia) ltac:(lia) eq_refl q eq_refl) as (lo & hi & E & B1 & B2 & Es). exists (lo + hi * 2 ^ 32). split; [rewrite E; apply (fold_lane_ok lo hi (Z.of_nat q)); lia|]. rewrite Es. lia. }
  cbn [fold_left]. destruct (LN 0%nat) as (s0 & -> & E0), (LN 1%nat) as (s1 & -> & E1), (LN 2%nat) as (s2 & -> & E2), (LN 3%nat) as (s3 & -> & E3).
  pose proof (Z.mod_pos_bound s0 p ltac:(lia)). pose proof (Z.mod_pos_bound s1 p ltac:(lia)). pose proof (Z.mod_pos_bound s2 p ltac:(lia)). pose proof (Z.mod_pos_bound s3 p ltac:(lia)).
  unfold wrap64. rewrite (Z.mod_small (0 + s0 mod p)) by lia. rewrite (Z.mod_small (0 + s0 mod p + s1 mod p)) by lia. rewrite (Z.mod_small (0 + s0 mod p + s1 mod p + s2 mod p)) by lia. rewrite (Z.mod_small (0 + s0 mod p + s1 mod p + s2 mod p + s3 mod p) (2 ^ 64)) by lia.
  pose proof (Z.mod_pos_bound (0 + s0 mod p + s1 mod p + s2 mod p + s3 mod p) p ltac:(lia)). unfold wrap32. rewrite (Z.mod_small _ (2 ^ 32)) by lia. apply eqp_iff_mod; [lia|]. rewrite !eqp_mod by lia.
  unfold tail_sum. rewrite tail_gen by (rewrite !firstn_length, !skipn_length; lia). rewrite firstn_length, skipn_length, Nat.min_l by lia.
  assert (Ed : dot n row v = dot (32 * q) row v + dot r (skipn (32 * q) row) (skipn (32 * q) v)) by (rewrite Dm; apply dot_split). rewrite Ed, blocks_dot. rewrite !sumn_add, <- E0, <- E1, <- E2, <- E3.
  assert (Ef : dot r (firstn r (skipn (32 * q) row)) (firstn r (skipn (32 * q) v)) = dot r (skipn (32 * q) row) (skipn (32 * q) v)).
  { apply sumn_ext. intros i Hi. assert (K : forall (k : nat) (x : list Z) j, (j < k)%nat -> nth j (firstn k x) 0 = nth j x 0). { induction k as [|k IHk]; intros x j Hj; [lia|]. destruct x; [reflexivity|]. destruct j; [reflexivity|]. cbn [firstn nth]. apply IHk. lia. } rewrite !K by exact Hi. reflexivity. }
  rewrite Ef. exists 0. ring.
Qed.
End K.

(** arrays *)
Lemma omap_map {A B} (f : A -> option B) (g : A -> B) l : (forall x, In x l -> f x = Some (g x)) -> omap f l = Some (map g l).
Proof. induction l as [|x l IH]; intros H; cbn [omap map]; [reflexivity|]. rewrite (H x (or_introl eq_refl)). unfold obind. rewrite IH by (intros; apply H; right; assumption). reflexivity. Qed.
Lemma upd_ok l : forall i x, (i < length l)%nat -> exists l', upd l i x = Some l' /\ length l' = length l /\ nth i l' 0 = x /\ forall j, j <> i -> nth j l' 0 = nth j l 0.
Proof.
  induction l as [|y l IH]; intros i x H; [cbn in H; lia|]. destruct i as [|i]; cbn [upd].
  - exists (x :: l). repeat split; auto. intros [|j] Hj; [congruence|reflexivity].
  - cbn [length] in H. destruct (IH i x ltac:(lia)) as (l' & E & L & N & O). rewrite E. unfold obind. exists (y :: l'). cbn [length nth]. repeat split; auto. intros [|j] Hj; [reflexivity|]. apply O. congruence.
Qed.
Lemma upds_ok ixs : forall l, (forall i, In i (map fst ixs) -> (i < length l)%nat) -> NoDup (map fst ixs) ->
  exists l', upds l ixs = Some l' /\ length l' = length l /\ (forall i x, In (i, x) ixs -> nth i l' 0 = x) /\ (forall i, ~ In i (map fst ixs) -> nth i l' 0 = nth i l 0).
Proof.
  induction ixs as [|[i x] ixs IH]; intros l H N; cbn [upds].
  - exists l. repeat split; auto. intros i x [].
  - cbn [map fst] in *. inversion N as [|? ? N1 N2]; subst. destruct (upd_ok l i x (H i (or_introl eq_refl))) as (l1 & E1 & L1 & V1 & O1). rewrite E1. unfold obind. destruct (IH l1) as (l' & E & L & V & O); [intros j Hj; rewrite L1; apply H; right; exact Hj|exact N2|].
    exists l'. split; [exact E|]. split; [lia|]. split.
    + intros j y [I|I]; [injection I as <- <-; rewrite O by exact N1; exact V1|apply V; exact I].
    + intros j Hj. rewrite O by (intros I; apply Hj; right; exact I). apply O1. intros ->. apply Hj. left. reflexivity.
Qed.

(** The sparse form stores the matrix M: the trivial rows are unit vectors, the others are stored in full; the entries left
    out at the end of a row are zero; the sizes fit in 32 bits. *)
Record represents (p : Z) (m : sp_mat) (M : mat) : Prop := {
  rp_rows : (m_nrows m <= m_ncols m)%nat;
  rp_size : Z.of_nat (m_nrows m) * Z.of_nat (m_ncols m) <= 2 ^ 32;
  rp_cols : Z.of_nat (m_ncols m) < 2 ^ 32;
  rp_dense : (m_nrows m * m_ncols m <= length (m_dense m))%nat;
  rp_small : forall c, In c (m_dense m) -> 0 <= c < p;
  rp_tpos : length (m_triv_pos m) = (m_ncols m - m_nrows m)%nat;
  rp_tidx : length (m_triv_idx m) = (m_ncols m - m_nrows m)%nat;
  rp_didx : length (m_dense_idx m) = m_nrows m;
  rp_dst : length (m_dst m) = m_nrows m;
  rp_nodup : NoDup (m_triv_idx m ++ m_dense_idx m);
  rp_bound : forall i, In i (m_triv_idx m ++ m_dense_idx m) -> (i < m_ncols m)%nat;
  rp_pos : forall i, In i (m_triv_pos m) -> (i < m_ncols m)%nat;
  rp_triv : forall t j, (t < m_ncols m - m_nrows m)%nat -> (j < m_ncols m)%nat ->
    eqp p (M (nth t (m_triv_idx m) 0%nat) j) (if (j =? nth t (m_triv_pos m) 0%nat)%nat then 1 else 0);
  rp_row : forall r j, (r < m_nrows m)%nat -> (j < m_ncols m)%nat -> eqp p (M (nth r (m_dense_idx m) 0%nat) j) (nth (r * m_ncols m + j) (m_dense m) 0);
  rp_zero : forall r j, (r < m_nrows m)%nat -> (m_ncols m - nth r (m_dst m) 0 <= j < m_ncols m)%nat -> nth (r * m_ncols m + j) (m_dense m) 0 = 0;
  rp_dstle : forall r, (r < m_nrows m)%nat -> (nth r (m_dst m) 0 <= m_ncols m)%nat }.

Lemma nth_skipn_add (k i : nat) (l : list Z) : nth i (skipn k l) 0 = nth (k + i) l 0.
Proof. revert l. induction k as [|k IH]; intros l; [reflexivity|]. destruct l; [destruct i; reflexivity|]. cbn [skipn]. rewrite IH. reflexivity. Qed.
Lemma nth_firstn_lt (k i : nat) (l : list Z) : (i < k)%nat -> nth i (firstn k l) 0 = nth i l 0.
Proof. revert i l. induction k as [|k IH]; intros i l H; [lia|]. destruct l; [reflexivity|]. destruct i; [reflexivity|]. cbn [firstn nth]. apply IH. lia. Qed.
Lemma nth_error_ok {A} (l : list A) i d : (i < length l)%nat -> nth_error l i = Some (nth i l d).
Proof. intros H. apply nth_error_nth'. exact H. Qed.

Lemma nodup_l {A} (a b : list A) : NoDup (a ++ b) -> NoDup a.
Proof. induction a as [|x a IH]; intros H; [constructor|]. cbn [app] in H. inversion H as [|? ? N1 N2]; subst. constructor; [intros I; apply N1, in_or_app; left; exact I|exact (IH N2)]. Qed.
Lemma nodup_r {A} (a b : list A) : NoDup (a ++ b) -> NoDup b.
Proof. induction a as [|x a IH]; intros H; [exact H|]. cbn [app] in H. inversion H; subst. auto. Qed.
Section M.
Variables (p : Z) (m : sp_mat) (M : mat).
Hypothesis P2 : 2 <= p.
Hypothesis PU : p < 1518500213.
Hypothesis R : represents p m M.
Lemma row_of_ok j : (j < m_nrows m)%nat -> exists row, row_of m j = Some row /\ length row = m_ncols m /\ small p row /\ forall i, (i < m_ncols m)%nat -> nth i row 0 = nth (j * m_ncols m + i) (m_dense m) 0.
Proof using P2 R.
  intros H. destruct R as [? Sz ? Ld Sm _ _ _ _ _ _ _ _ _ _ _]. unfold row_of. assert (W : wrap32 (Z.of_nat j * Z.of_nat (m_ncols m)) = Z.of_nat (j * m_ncols m)).
  { unfold wrap32. rewrite Nat2Z.inj_mul. apply Z.mod_small. nia. } rewrite W, Nat2Z.id. assert (B : (j * m_ncols m + m_ncols m <= m_nrows m * m_ncols m)%nat) by nia.
  destruct (Nat.leb_spec (j * m_ncols m + m_ncols m) (length (m_dense m))) as [L|L]; [|lia]. eexists; split; [reflexivity|]. split; [rewrite firstn_length, skipn_length; lia|]. split; [apply small_firstn, small_skipn; exact Sm|].
  intros i Hi. rewrite nth_firstn_lt by exact Hi. apply nth_skipn_add.
Qed.
Lemma row_product_ok k v j : (j < m_nrows m)%nat -> length v = m_ncols m -> small p v ->
  row_product k p m v j = Some (sumn (m_ncols m) (fun i => nth (j * m_ncols m + i) (m_dense m) 0 * nth i v 0) mod p).
Proof using P2 PU R.
  intros H Lv Sv. destruct (row_of_ok j H) as (row & E & L & Sr & V). unfold row_product. rewrite E. unfold obind at 1.
  assert (Ed : dot (m_ncols m) row v = sumn (m_ncols m) (fun i => nth (j * m_ncols m + i) (m_dense m) 0 * nth i v 0)) by (apply sumn_ext; intros i Hi; rewrite V by exact Hi; reflexivity).
  destruct R as [_ _ Cb _ _ _ _ _ Ldst _ _ _ _ _ Zr Dl]. destruct k.
  - rewrite scalar_row_ok by (try assumption; lia). rewrite L, Ed. reflexivity.
  - rewrite (nth_error_ok (m_dst m) j 0%nat) by lia. unfold obind. specialize (Dl j H). destruct (Nat.ltb_spec (m_ncols m) (nth j (m_dst m) 0%nat)) as [X|X]; [lia|].
    rewrite avx_row_ok by (try assumption; lia). f_equal. f_equal. rewrite <- Ed. unfold dot. symmetry. apply sumn_more; [lia|]. intros i Hi. rewrite V by lia. rewrite (Zr j i H Hi). reflexivity.
Qed.
Lemma combine_fst (a : list nat) (b : list Z) n : length a = n -> length b = n -> map fst (map (fun i => (nth i a 0%nat, nth i b 0)) (seq 0 n)) = a.
Proof using. intros La Lb. rewrite map_map. cbn [fst]. apply (nth_ext _ _ 0%nat 0%nat); [rewrite map_length, seq_length; lia|]. intros i Hi. rewrite map_length, seq_length in Hi. rewrite (nth_indep _ 0%nat ((fun i => nth i a 0%nat) 0%nat)) by (rewrite map_length, seq_length; exact Hi). rewrite (map_nth (fun i => nth i a 0%nat)), seq_nth by exact Hi. reflexivity. Qed.
Lemma cover i : (i < m_ncols m)%nat -> (exists t, (t < m_ncols m - m_nrows m)%nat /\ nth t (m_triv_idx m) 0%nat = i) \/ (exists r, (r < m_nrows m)%nat /\ nth r (m_dense_idx m) 0%nat = i).
Proof using R.
  intros H. destruct R as [Lr _ _ _ _ _ Lt Ldi _ Nd Bd _ _ _ _ _]. assert (I : In i (m_triv_idx m ++ m_dense_idx m)).
  { apply (NoDup_length_incl (l' := seq 0 (m_ncols m)) Nd); [rewrite app_length, seq_length; lia|intros x Hx; apply in_seq; specialize (Bd x Hx); lia|apply in_seq; lia]. }
  apply in_app_or in I as [I|I]; apply (In_nth _ _ 0%nat) in I as (t & Ht & E); [left|right]; exists t; split; [lia|exact E|lia|exact E].
Qed.
Lemma mult_vec_ok k old v : length old = m_ncols m -> length v = m_ncols m -> small p v ->
  exists r, mult_vec k p m old v = Some r /\ length r = m_ncols m /\ forall i, (i < m_ncols m)%nat -> nth i r 0 = mvec (m_ncols m) M (fun j => nth j v 0) i mod p.
Proof using P2 PU R.
  intros Lo Lv Sv. set (D := m_ncols m) in *. set (nt := (D - m_nrows m)%nat). pose proof (rp_rows _ _ _ R) as Lr. pose proof (rp_tidx _ _ _ R) as Lt. pose proof (rp_tpos _ _ _ R) as Ltp. pose proof (rp_didx _ _ _ R) as Ldi. pose proof (rp_nodup _ _ _ R) as Nd. pose proof (rp_bound _ _ _ R) as Bd. pose proof (rp_pos _ _ _ R) as Bp. fold D in Lr, Lt, Ltp, Bd, Bp. fold nt in Lt, Ltp.
  unfold mult_vec. fold D. fold nt.
  rewrite (omap_map _ (fun i => (nth i (m_triv_idx m) 0%nat, nth (nth i (m_triv_pos m) 0%nat) v 0))).
  2: { intros i Hi. apply in_seq in Hi. rewrite (nth_error_ok (m_triv_idx m) i 0%nat) by lia. unfold obind at 1. rewrite (nth_error_ok (m_triv_pos m) i 0%nat) by lia. unfold obind at 1. assert (X : (nth i (m_triv_pos m) 0 < D)%nat) by (apply Bp, nth_In; lia). rewrite (nth_error_ok v _ 0) by lia. reflexivity. }
  unfold obind at 1. set (tv := map _ (seq 0 nt)). assert (Ft : map fst tv = m_triv_idx m).
  { unfold tv. rewrite map_map. cbn [fst]. apply (nth_ext _ _ 0%nat 0%nat); [rewrite map_length, seq_length; lia|]. intros i Hi. rewrite map_length, seq_length in Hi. rewrite (nth_indep _ 0%nat ((fun i => nth i (m_triv_idx m) 0%nat) 0%nat)) by (rewrite map_length, seq_length; exact Hi). rewrite (map_nth (fun i => nth i (m_triv_idx m) 0%nat)), seq_nth by exact Hi. reflexivity. }
  destruct (upds_ok tv old) as (r1 & E1 & L1 & V1 & O1); [rewrite Ft, Lo; intros i Hi; apply Bd, in_or_app; left; exact Hi|rewrite Ft; apply (nodup_l _ _ Nd)|]. rewrite E1. unfold obind at 1.
  set (g := fun j => sumn D (fun i => nth (j * D + i) (m_dense m) 0 * nth i v 0) mod p). rewrite (omap_map _ g).
  2: { intros j Hj. apply in_seq in Hj. apply row_product_ok; try assumption; lia. }
  unfold obind at 1. rewrite (omap_map _ (fun i => (nth i (m_dense_idx m) 0%nat, nth i (map g (seq 0 (m_nrows m))) 0))).
  2: { intros i Hi. apply in_seq in Hi. rewrite (nth_error_ok (m_dense_idx m) i 0%nat) by lia. unfold obind at 1. rewrite (nth_error_ok (map g (seq 0 (m_nrows m))) i 0) by (rewrite map_length, seq_length; lia). reflexivity. }
  unfold obind at 1. set (dv := map _ (seq 0 (m_nrows m))). assert (Fd : map fst dv = m_dense_idx m) by (apply combine_fst; [exact Ldi|rewrite map_length, seq_length; reflexivity]).
  destruct (upds_ok dv r1) as (r & E2 & L2 & V2 & O2); [rewrite Fd, L1, Lo; intros i Hi; apply Bd, in_or_app; right; exact Hi|rewrite Fd; apply (nodup_r _ _ Nd)|]. exists r. split; [exact E2|]. split; [lia|].
  intros i Hi. destruct (cover i Hi) as [(t & Ht & Et)|(q & Hq & Eq)].
  - assert (Ni : ~ In i (m_dense_idx m)). { intros I. assert (It : In i (m_triv_idx m)) by (rewrite <- Et; apply nth_In; lia). clear - Nd I It. induction (m_triv_idx m) as [|x l IH]; [destruct It|]. cbn [app] in Nd. inversion Nd as [|? ? N1 N2]; subst. destruct It as [->|It]; [apply N1, in_or_app; right; exact I|exact (IH N2 It)]. }
    rewrite O2 by (rewrite Fd; exact Ni). rewrite (V1 i (nth (nth t (m_triv_pos m) 0%nat) v 0)).
    + assert (X : (nth t (m_triv_pos m) 0 < D)%nat) by (apply Bp, nth_In; lia). rewrite <- (Z.mod_small (nth _ v 0) p) by (apply small_nth; [lia|exact Sv]). apply eqp_iff_mod; [lia|]. unfold mvec.
      rewrite (sumn_eqp p D _ (fun j => if (j =? nth t (m_triv_pos m) 0)%nat then nth j v 0 else 0)); [rewrite sumn_delta by exact X; reflexivity|].
      intros j Hj. pose proof (rp_triv _ _ _ R t j Ht Hj) as T. rewrite Et in T. rewrite T. destruct (j =? nth t (m_triv_pos m) 0)%nat; [exists 0; ring|exists 0; ring].
    + unfold tv. apply in_map_iff. exists t. split; [rewrite Et; reflexivity|apply in_seq; lia].
  - rewrite (V2 i (g q)).
    + unfold g. apply eqp_iff_mod; [lia|]. unfold mvec. apply sumn_eqp. intros j Hj. pose proof (rp_row _ _ _ R q j Hq Hj) as T. rewrite Eq in T. fold D in T. rewrite T. reflexivity.
    + unfold dv. apply in_map_iff. exists q. split; [rewrite Eq; f_equal|apply in_seq; lia]. rewrite (nth_indep _ 0 (g 0%nat)) by (rewrite map_length, seq_length; exact Hq). rewrite map_nth, seq_nth by exact Hq. reflexivity.
Qed.
End M.
