(** Hankel systems modulo p: the formula with the first and the last column of the inverse. *)
From Coq Require Import ZArith Arith List Bool Lia Znumtheory Setoid Morphisms Ring.
From Verif Require Import LinSpec FpSpec FglmSpec ModInvModel NmodModel FpProofs BmModel BmProofs FglmModel MatVecProofs.
Import ListNotations.
Open Scope Z_scope.

Section G.
Variable p : Z.
Hypothesis Hp : prime p.
Notation "a =p b" := (eqp p a b) (at level 70).
Variables (d : nat) (h y1 z2 : nat -> Z).
Notation D := (S d).
Definition delta (i j : nat) : Z := if (i =? j)%nat then 1 else 0.
Definition hmul (h : nat -> Z) (n : nat) (w : nat -> Z) (i : nat) : Z := sumn n (fun j => h (i + j)%nat * w j).
Hypothesis HY : forall i, (i < D)%nat -> hmul h D y1 i =p delta i 0.
Hypothesis HZ : forall i, (i < D)%nat -> hmul h D z2 i =p delta i d.

Lemma hmul_sym u w : sumn D (fun i => u i * hmul h D w i) = sumn D (fun i => w i * hmul h D u i).
Proof.
  unfold hmul. rewrite (sumn_ext D _ (fun i => sumn D (fun j => u i * (h (i + j)%nat * w j)))) by (intros; symmetry; apply sumn_scal). rewrite sumn_swap. apply sumn_ext. intros j _. rewrite <- sumn_scal. apply sumn_ext. intros i _. rewrite (Nat.add_comm j i). ring.
Qed.
Lemma pairing u w f g : (forall i, (i < D)%nat -> hmul h D u i =p f i) -> (forall i, (i < D)%nat -> hmul h D w i =p g i) ->
  sumn D (fun i => u i * g i) =p sumn D (fun i => w i * f i).
Proof.
  intros Hu Hw. rewrite <- (sumn_eqp p D (fun i => u i * hmul h D w i)) by (intros i Hi; rewrite (Hw i Hi); reflexivity). rewrite hmul_sym. apply sumn_eqp. intros i Hi. rewrite (Hu i Hi). reflexivity.
Qed.
Lemma sum_delta f k c : (k < D)%nat -> sumn D (fun i => f i * (c * delta i k)) = c * f k.
Proof.
  intros H. rewrite (sumn_ext D _ (fun i => if (i =? k)%nat then c * f i else 0)); [apply (sumn_delta D k (fun i => c * f i) H)|]. intros i _. unfold delta. destruct (i =? k)%nat; ring.
Qed.
Lemma sum_delta1 f k : (k < D)%nat -> sumn D (fun i => f i * delta i k) = f k.
Proof. intros H. rewrite <- (Z.mul_1_l (f k)), <- (sum_delta f k 1 H). apply sumn_ext. intros i _. ring. Qed.

Definition z1 (j : nat) : Z := y1 (d - j)%nat.
Definition y2 (j : nat) : Z := z2 (d - j)%nat.
Definition xs (c : nat -> Z) (i : nat) : Z := match i with O => 0 | S j => c j end.
Lemma corner : z2 0%nat =p y1 d.
Proof.
  pose proof (pairing z2 y1 (fun i => delta i d) (fun i => delta i 0) HZ HY) as K. cbv beta in K. rewrite !sum_delta1 in K by lia. exact K.
Qed.
(** the columns of the solution, times z1(0) *)
Fixpoint cz (m : nat) : nat -> Z :=
  match m with
  | O => fun i => z2 0%nat * z1 i
  | S m' => fun i => xs (cz m') i + z2 m * z1 i - y1 m' * xs y2 i
  end.
(** T w, with T_ij = h_(i + d - j) *)
Definition tmul (w : nat -> Z) (i : nat) : Z := sumn D (fun j => h (i + (d - j))%nat * w j).
Definition flip (w : nat -> Z) (j : nat) : Z := w (d - j)%nat.
Lemma tmul_hmul w i : tmul w i = hmul h D (flip w) i.
Proof.
  unfold tmul, hmul, flip. rewrite sumn_rev. apply sumn_ext. intros j Hj. replace (d - (D - 1 - j))%nat with j by lia. replace (D - 1 - j)%nat with (d - j)%nat by lia. reflexivity.
Qed.
Lemma tmul_xs c i : tmul (xs c) (S i) = tmul c i - h i * c d.
Proof.
  unfold tmul. rewrite sumn_S. cbn [xs sumn]. replace (i + (d - d))%nat with i by lia. rewrite (sumn_ext d (fun j => h (S i + (d - S j))%nat * c j) (fun j => h (i + (d - j))%nat * c j)); [ring|]. intros j Hj. f_equal. f_equal. lia.
Qed.
Lemma tmul_lin a b c u v w i : tmul (fun j => a * u j + b * v j - c * w j) i = a * tmul u i + b * tmul v i - c * tmul w i.
Proof.
  unfold tmul. rewrite <- !sumn_scal. rewrite (sumn_ext D _ (fun j => a * (h (i + (d - j))%nat * u j) + b * (h (i + (d - j))%nat * v j) + (- c) * (h (i + (d - j))%nat * w j))) by (intros; ring). rewrite !sumn_add, !sumn_scal. ring.
Qed.
Lemma tmul_z1 i : (i < D)%nat -> tmul z1 i =p delta i 0.
Proof.
  intros H. rewrite tmul_hmul. rewrite <- (HY i H). unfold hmul. apply sumn_eqp. intros j Hj. unfold flip, z1. replace (d - (d - j))%nat with j by lia. reflexivity.
Qed.
Lemma tmul_y2 i : (i < D)%nat -> tmul y2 i =p delta i d.
Proof.
  intros H. rewrite tmul_hmul. rewrite <- (HZ i H). unfold hmul. apply sumn_eqp. intros j Hj. unfold flip, y2. replace (d - (d - j))%nat with j by lia. reflexivity.
Qed.
Hypothesis NZ : ~ y1 d =p 0.
Lemma tmul_cz : forall m, (m < D)%nat -> forall i, (i < D)%nat -> tmul (cz m) i =p y1 d * delta i m.
Proof.
  induction m as [|m IH]; intros Hm i Hi.
  - assert (E : tmul (cz 0) i = z2 0%nat * tmul z1 i). { unfold tmul. rewrite <- sumn_scal. apply sumn_ext. intros j _. cbn [cz]. ring. } rewrite E, corner, tmul_z1 by exact Hi. reflexivity.
  - specialize (IH ltac:(lia)). assert (EX : forall i, tmul (cz (S m)) i = tmul (xs (cz m)) i + z2 (S m) * tmul z1 i - y1 m * tmul (xs y2) i).
    { intros i'. rewrite <- (Z.mul_1_l (tmul (xs (cz m)) i')), <- tmul_lin. unfold tmul. apply sumn_ext. intros j _. cbn [cz]. ring. }
    (* c_m at the last place *)
    assert (CL : cz m d =p y1 d * y1 m).
    { pose proof (pairing (flip (cz m)) y1 (fun i => y1 d * delta i m) (fun i => delta i 0)) as K. cbv beta in K. rewrite sum_delta1, sum_delta in K by lia. change (flip (cz m) 0%nat) with (cz m (d - 0)%nat) in K. rewrite Nat.sub_0_r in K. apply K; [|exact HY]. intros i' Hi'. rewrite <- tmul_hmul. apply IH. exact Hi'. }
    assert (UP : forall i', (S i' < D)%nat -> tmul (cz (S m)) (S i') =p y1 d * delta (S i') (S m)).
    { intros i' Hi'. rewrite EX, !tmul_xs, (IH i') by lia. rewrite tmul_z1 by lia. rewrite (tmul_y2 i') by lia. rewrite CL. unfold y2. rewrite Nat.sub_diag, corner. unfold delta. cbn [Nat.eqb]. destruct (Nat.eqb_spec i' d); [lia|]. exists 0. ring. }
    destruct i as [|i]; [|apply UP; exact Hi].
    set (tau := tmul (cz (S m)) 0%nat). unfold delta. cbn [Nat.eqb]. rewrite Z.mul_0_r.
    assert (K : sumn D (fun i => flip (cz (S m)) i * delta i d) =p sumn D (fun i => z2 i * (tau * delta i 0 + y1 d * delta i (S m)))).
    { apply (pairing (flip (cz (S m))) z2 (fun i => tau * delta i 0 + y1 d * delta i (S m)) (fun i => delta i d)); [|exact HZ]. intros i' Hi'. rewrite <- tmul_hmul. destruct i' as [|i']; [unfold delta; cbn [Nat.eqb]; fold tau; exists 0; ring|]. rewrite (UP i' Hi'). unfold delta. cbn [Nat.eqb]. exists 0. ring. }
    rewrite sum_delta1 in K by lia. rewrite (sumn_ext D _ (fun i => z2 i * (tau * delta i 0) + z2 i * (y1 d * delta i (S m)))) in K by (intros; ring). rewrite sumn_add, !sum_delta in K by lia.
    unfold flip in K. rewrite Nat.sub_diag in K. cbn [cz xs] in K. unfold z1 in K. rewrite Nat.sub_0_r in K. rewrite corner in K.
    assert (Z : tau * y1 d =p 0). { destruct K as [q K]. exists (- q). lia. } destruct (eqp_integral p Hp _ _ Z) as [Z'|Z']; [exact Z'|contradiction].
Qed.
Lemma tmul_sum (V : nat -> Z) i : (i < D)%nat -> tmul (fun j => sumn D (fun m => V m * cz m j)) i =p y1 d * V i.
Proof.
  intros Hi. transitivity (sumn D (fun m => V m * tmul (cz m) i)).
  - unfold tmul. rewrite (sumn_ext D _ (fun j => sumn D (fun m => h (i + (d - j))%nat * (V m * cz m j)))) by (intros; symmetry; apply sumn_scal). rewrite sumn_swap. apply sumn_eqp. intros m _. rewrite <- sumn_scal. apply sumn_eqp. intros j _. exists 0. ring.
  - rewrite (sumn_eqp p D _ (fun m => V m * (y1 d * delta m i))).
    + rewrite sum_delta by exact Hi. reflexivity.
    + intros m Hm. rewrite (tmul_cz m Hm i Hi). unfold delta. rewrite (Nat.eqb_sym i m). reflexivity.
Qed.
(** closed form of the columns *)
Lemma cz_closed m : forall i, cz m i = sumn (S i) (fun b => z1 (i - b)%nat * (if (b <=? m)%nat then z2 (m - b)%nat else 0)) - xs (fun i => sumn (S i) (fun b => y2 (i - b)%nat * (if (b <? m)%nat then y1 (m - 1 - b)%nat else 0))) i.
Proof.
  induction m as [|m IH]; intros i.
  - cbn [cz]. rewrite sumn_S. rewrite Nat.sub_0_r. cbn [Nat.leb]. rewrite (sumn_zero_ext i) by (intros j _; cbn [Nat.leb]; ring). rewrite Nat.sub_0_r. assert (X : xs (fun i => sumn (S i) (fun b => y2 (i - b)%nat * (if (b <? 0)%nat then y1 (0 - 1 - b)%nat else 0))) i = 0). { destruct i as [|i]; [reflexivity|]. apply sumn_zero_ext. intros j _. cbn. ring. } rewrite X. ring.
  - cbn [cz]. rewrite sumn_S. cbn [Nat.leb]. rewrite !Nat.sub_0_r. destruct i as [|i]; [cbn [xs sumn]; ring|]. cbn [xs]. rewrite IH. 
    rewrite (sumn_S i (fun b => y2 (i - b)%nat * (if (b <? S m)%nat then y1 (S m - 1 - b)%nat else 0))). replace (0 <? S m)%nat with true by reflexivity. rewrite !Nat.sub_0_r. replace (S m - 1)%nat with m by lia.
    rewrite (sumn_ext (S i) (fun i0 => z1 (S i - S i0)%nat * (if (i0 <=? m)%nat then z2 (S m - S i0)%nat else 0)) (fun b => z1 (i - b)%nat * (if (b <=? m)%nat then z2 (m - b)%nat else 0))) by (intros j _; reflexivity).
    assert (X : xs (fun i => sumn (S i) (fun b => y2 (i - b)%nat * (if (b <? m)%nat then y1 (m - 1 - b)%nat else 0))) i = sumn i (fun b => y2 (i - S b)%nat * (if (S b <? S m)%nat then y1 (m - S b)%nat else 0))).
    { destruct i as [|i]; [reflexivity|]. cbn [xs]. apply sumn_ext. intros j _. cbn [Nat.sub]. change (S j <? S m)%nat with (j <? m)%nat. replace (m - 1 - j)%nat with (m - S j)%nat by lia. reflexivity. }
    rewrite X. ring.
Qed.
End G.

Lemma pc_conv a : forall b i, pc (pmul a b) i = sumn (S i) (fun j => pc a (i - j) * pc b j).
Proof.
  induction a as [|x a IH]; intros b i.
  - cbn [pmul]. rewrite pc_nil. symmetry. apply sumn_zero_ext. intros j _. rewrite pc_nil. ring.
  - rewrite pc_pmul_cons. cbn [sumn]. rewrite Nat.sub_diag, pc_cons0. destruct i as [|i]; [cbn [sumn]; ring|]. rewrite IH. rewrite (sumn_ext (S i) (fun j => pc (x :: a) (S i - j) * pc b j) (fun j => pc a (i - j) * pc b j)); [ring|]. intros j Hj. rewrite (Nat.sub_succ_l j i) by lia. reflexivity.
Qed.
Lemma pc_firstn n a i : (i < n)%nat -> pc (firstn n a) i = pc a i.
Proof. apply nth_firstn_lt. Qed.
Lemma pc_mirror a n i : (i < n)%nat -> pc (mirror a n) i = pc a (n - 1 - i).
Proof.
  intros H. unfold mirror, pc. rewrite rev_nth by (rewrite map_length, seq_length; exact H). rewrite map_length, seq_length. rewrite (nth_indep _ 0 (nth 0%nat a 0)) by (rewrite map_length, seq_length; lia). rewrite (map_nth (fun j => nth j a 0)), seq_nth by lia. f_equal. lia.
Qed.
Lemma sum_tail d k g : (k <= d)%nat -> sumn (S (d - k)) (fun j => g (d - j)%nat) = sumn (S d) (fun m => if (k <=? m)%nat then g m else 0).
Proof.
  intros H. rewrite (sumn_rev (S d)). rewrite (sumn_more (S (d - k)) (S d)); [|lia|].
  - apply sumn_ext. intros j Hj. replace (S d - 1 - j)%nat with (d - j)%nat by lia. destruct (Nat.leb_spec k (d - j)); [reflexivity|lia].
  - intros j Hj. destruct (Nat.leb_spec k (S d - 1 - j)); [lia|reflexivity].
Qed.

Section Solve.
Variable p : Z.
Hypothesis Hp : prime p.
Notation "a =p b" := (eqp p a b) (at level 70).
Variables (d : nat) (h : nat -> Z) (Z1 Z2 V : list Z).
Notation D := (S d).
Let y1 := fun j => pc Z1 (d - j).
Let z2 := fun j => pc Z2 j.
Hypothesis L1 : pc Z1 D =p 0.
Hypothesis L2 : pc Z2 D =p 0.
Hypothesis LV : length V = D.
Hypothesis HY : forall i, (i < D)%nat -> hmul h D y1 i =p delta i 0.
Hypothesis HZ : forall i, (i < D)%nat -> hmul h D z2 i =p delta i d.
Hypothesis NZ : ~ pc Z1 0 =p 0.
Lemma pc_mullow a b i : (i < D)%nat -> pc (mullow p a b D) i =p sumn (S i) (fun j => pc a (i - j) * pc b j).
Proof. intros H. unfold mullow. rewrite (norm_peq p Hp _ i). rewrite pc_firstn by exact H. rewrite pc_conv. reflexivity. Qed.
Lemma pc_revV j : (j < D)%nat -> pc (rev V) j = pc V (d - j).
Proof. intros H. unfold pc. rewrite rev_nth by lia. f_equal. lia. Qed.
Lemma rz (Z : list Z) i : pc Z D =p 0 -> (i < D)%nat -> pc (mirror Z (S D)) i =p xs (fun j => pc Z (d - j)) i.
Proof. intros HZ0 H. rewrite pc_mirror by lia. destruct i as [|i]; cbn [xs]; [replace (S D - 1 - 0)%nat with D by lia; exact HZ0|]. replace (S D - 1 - S i)%nat with (d - i)%nat by lia. reflexivity. Qed.
Lemma solve_hankel_ok : forall i, (i < D)%nat -> hmul h D (fun j => pc (mirror (solve_hankel p Z1 Z2 V D) D) j) i =p pc V i.
Proof.
  set (A := mullow p (mirror Z1 (S D)) (rev V) D). set (B := mullow p Z2 (rev V) D).
  assert (EB : forall k, (k < D)%nat -> pc (mirror B D) k =p sumn D (fun m => if (k <=? m)%nat then z2 (m - k)%nat * pc V m else 0)).
  { intros k Hk. rewrite pc_mirror by exact Hk. replace (D - 1 - k)%nat with (d - k)%nat by lia. unfold B. rewrite pc_mullow by lia. rewrite <- (sum_tail d k (fun m => z2 (m - k)%nat * pc V m)) by lia. apply sumn_eqp. intros j Hj. rewrite pc_revV by lia. unfold z2. replace (d - k - j)%nat with (d - j - k)%nat by lia. reflexivity. }
  assert (EA : forall k, (k < D)%nat -> pc (mirror A D) k =p sumn D (fun m => if (k <=? m)%nat then xs y1 (m - k)%nat * pc V m else 0)).
  { intros k Hk. rewrite pc_mirror by exact Hk. replace (D - 1 - k)%nat with (d - k)%nat by lia. unfold A. rewrite pc_mullow by lia. rewrite <- (sum_tail d k (fun m => xs y1 (m - k)%nat * pc V m)) by lia. apply sumn_eqp. intros j Hj. rewrite pc_revV by lia. rewrite (rz Z1) by (try exact L1; lia). replace (d - k - j)%nat with (d - j - k)%nat by lia. reflexivity. }
  assert (EP : forall i, (i < D)%nat -> pc Z1 0 * pc (solve_hankel p Z1 Z2 V D) i =p sumn D (fun m => pc V m * cz d y1 z2 m i)).
  { intros i Hi. unfold solve_hankel. fold A B. rewrite (nscal_peq p Hp _ _ i), pc_pscal, (nadd_peq p Hp _ _ i), pc_padd, (norm_peq p Hp _ i), pc_popp.
    rewrite !pc_mullow by exact Hi. destruct (zinv_ok p Hp (pc Z1 0) NZ) as [Iv _]. fold (pc Z1 0). set (S1 := sumn (S i) (fun j => pc Z1 (i - j) * pc (mirror B D) j)). set (S2 := sumn (S i) (fun j => pc (mirror Z2 (S D)) (i - j) * pc (mirror A D) j)).
    transitivity ((zinv p (pc Z1 0) * pc Z1 0) * (S1 + - S2)); [exists 0; ring|]. rewrite Iv. rewrite Z.mul_1_l.
    assert (E1 : S1 =p sumn D (fun m => pc V m * sumn (S i) (fun b => z1 d y1 (i - b) * (if (b <=? m)%nat then z2 (m - b)%nat else 0)))).
    { unfold S1. rewrite (sumn_ext D _ (fun m => sumn (S i) (fun b => pc V m * (z1 d y1 (i - b) * (if (b <=? m)%nat then z2 (m - b)%nat else 0))))) by (intros; symmetry; apply sumn_scal). rewrite sumn_swap. apply sumn_eqp. intros b Hb. rewrite EB by lia. rewrite <- sumn_scal. apply sumn_eqp. intros m Hm. unfold z1, y1. replace (d - (d - (i - b)))%nat with (i - b)%nat by lia. destruct (b <=? m)%nat; exists 0; ring. }
    assert (E2 : S2 =p sumn D (fun m => pc V m * xs (fun i => sumn (S i) (fun b => y2 d z2 (i - b) * (if (b <? m)%nat then y1 (m - 1 - b)%nat else 0))) i)).
    { unfold S2. destruct i as [|i].
      - cbn [sumn xs]. rewrite (rz Z2) by (try exact L2; lia). cbn [Nat.sub xs]. rewrite sumn_zero_ext by (intros; ring). rewrite Z.mul_0_l, !Z.add_0_l, Z.mul_0_r. reflexivity.
      - cbn [xs]. change (sumn (S (S i))) with (fun f : nat -> Z => sumn (S i) f + f (S i)). cbv beta. rewrite (rz Z2 (S i - S i)) by (try exact L2; lia). rewrite Nat.sub_diag. cbn [xs]. rewrite Z.mul_0_l, Z.add_0_r.
        rewrite (sumn_ext D _ (fun m => sumn (S i) (fun b => pc V m * (y2 d z2 (i - b) * (if (b <? m)%nat then y1 (m - 1 - b)%nat else 0))))) by (intros; symmetry; apply sumn_scal). rewrite sumn_swap. apply sumn_eqp. intros b Hb. rewrite (rz Z2) by (try exact L2; lia). rewrite (Nat.sub_succ_l b i) by lia. cbn [xs]. rewrite EA by lia. rewrite <- sumn_scal. apply sumn_eqp. intros m Hm. change (y2 d z2 (i - b)) with (pc Z2 (d - (i - b))).
        destruct (Nat.leb_spec b m) as [H|H], (Nat.ltb_spec b m) as [H'|H']; try lia.
        + replace (m - b)%nat with (S (m - 1 - b)) by lia. cbn [xs]. exists 0. ring.
        + replace (m - b)%nat with 0%nat by lia. cbn [xs]. exists 0. ring.
        + exists 0. ring. }
    rewrite E1, E2. transitivity (sumn D (fun m => pc V m * sumn (S i) (fun b => z1 d y1 (i - b) * (if (b <=? m)%nat then z2 (m - b)%nat else 0)) + (-1) * (pc V m * xs (fun i => sumn (S i) (fun b => y2 d z2 (i - b) * (if (b <? m)%nat then y1 (m - 1 - b)%nat else 0))) i))).
    - rewrite sumn_add, sumn_scal. exists 0. ring.
    - apply sumn_eqp. intros m _. rewrite cz_closed. exists 0. ring. }
  intros i Hi. assert (Y1 : y1 d = pc Z1 0) by (unfold y1; rewrite Nat.sub_diag; reflexivity). assert (NZ' : ~ y1 d =p 0) by (rewrite Y1; exact NZ).
  pose proof (tmul_sum p Hp d h y1 z2 HY HZ NZ' (fun m => pc V m) i Hi) as T. rewrite Y1 in T.
  assert (E : tmul d h (fun j => sumn D (fun m => pc V m * cz d y1 z2 m j)) i =p pc Z1 0 * hmul h D (fun j => pc (mirror (solve_hankel p Z1 Z2 V D) D) j) i).
  { rewrite tmul_hmul. unfold hmul. rewrite <- sumn_scal. apply sumn_eqp. intros j Hj. unfold flip. rewrite <- EP by lia. rewrite pc_mirror by exact Hj. replace (D - 1 - j)%nat with (d - j)%nat by lia. exists 0. ring. }
  rewrite E in T. destruct (zinv_ok p Hp (pc Z1 0) NZ) as [Iv _]. set (H0 := hmul h D _ i) in *. transitivity ((zinv p (pc Z1 0) * pc Z1 0) * H0); [rewrite Iv, Z.mul_1_l; reflexivity|]. rewrite <- Z.mul_assoc, T, Z.mul_assoc, Iv, Z.mul_1_l. reflexivity.
Qed.
End Solve.

Lemma apply_sum s q : forall i, apply_at q s i = sumn (length q) (fun j => pc q j * s (i + j)%nat).
Proof.
  induction q as [|c q IH]; intros i; [reflexivity|]. cbn [apply_at length]. rewrite sumn_S, Nat.add_0_r, pc_cons0, IH. f_equal. apply sumn_ext. intros j _. rewrite pc_consS. f_equal. f_equal. lia.
Qed.
Lemma pc_map_seq f n i : (i < n)%nat -> pc (map f (seq 0 n)) i = f i.
Proof. intros H. unfold pc. rewrite (nth_indep _ 0 (f 0%nat)) by (rewrite map_length, seq_length; exact H). rewrite map_nth, seq_nth by exact H. reflexivity. Qed.

Section Inv.
Variable p : Z.
Hypothesis Hp : prime p.
Notation "a == b" := (peq p a b) (at level 70).
Notation "a =p b" := (eqp p a b) (at level 70).
Add Ring fp_ring5 : (pring p) (setoid (peq_eq p) (prext p)).
Variables (d : nat) (h : nat -> Z).
Notation D := (S d).
Definition nonsing : Prop := forall w, (forall i, (i < D)%nat -> hmul h D w i =p 0) -> forall j, (j < D)%nat -> w j =p 0.
Hypothesis NS : nonsing.
Notation n := (2 * D - 1)%nat.

Lemma hmul_ext w w' i : (forall j, (j < D)%nat -> w j =p w' j) -> hmul h D w i =p hmul h D w' i.
Proof. intros H. apply sumn_eqp. intros j Hj. rewrite (H j Hj). reflexivity. Qed.
Lemma hmul_scal c w i : hmul h D (fun j => c * w j) i = c * hmul h D w i.
Proof. unfold hmul. rewrite <- sumn_scal. apply sumn_ext. intros j _. ring. Qed.
(** what the Euclidean algorithm leaves for n = 2D - 1 points: w is the cofactor seen as a vector, its image under H a
    multiple of a unit vector, and the factor is the leading coefficient of the remainder *)
Lemma reduce_points pts : length pts = n -> exists B, bm_reduce p (restart pts) = Some B /\ nf p (bV1 B) /\ nf p (bR1 B) /\
  dlt p (bV1 B) D /\ dlt p (bR1 B) D /\ ~ bV1 B == [] /\ (length (bV1 B) <= D)%nat /\
  forall e, (e < n)%nat -> pc (pmul (bV1 B) (rev pts)) e =p pc (bR1 B) e.
Proof.
  intros L. destruct (bm_reduce_ok p Hp _ (add_inv p bm_start pts (start_inv p Hp))) as (B & E & EP & EN & IB). cbn [bm_add_points bm_start bpts app] in EP, EN. destruct IB as (_ & d0 & LI0 & HB). rewrite EN, L in HB. rewrite EN, EP, firstn_all in LI0. rewrite L in LI0. destruct LI0 as [_ NR1 _ NV1 (U0 & U1 & e & _ & E1 & _ & _) D0 D1 V1 V0 Ln L2]. cbn [bquad qR1 qV1 qR0 qV0] in *.
  exists B. split; [exact E|]. split; [exact NV1|]. split; [exact NR1|]. assert (DV : dlt p (bV1 B) D) by (apply (dlt_le p _ (S (n - d0))); [lia|apply hdeg_dlt; exact V1]).
  split; [exact DV|]. split; [apply (nf_dlt p Hp _ _ NR1); unfold ndeg in HB; lia|]. split; [apply (hdeg_nz p _ _ V1)|]. split; [apply (nf_dlt p Hp _ _ NV1); exact DV|].
  intros k Hk. rewrite <- (E1 k). rewrite pc_padd. assert (Z : pc (pmul U1 (pX n)) k = 0). { rewrite pc_conv. apply sumn_zero_ext. intros j Hj. rewrite pc_pX. destruct (Nat.eqb_spec j n); [lia|ring]. } rewrite Z, Z.add_0_l. reflexivity.
Qed.
Lemma vec_zero V : length V <> 0%nat -> nf p V -> (length V <= D)%nat -> ~ (forall j, (j < D)%nat -> pc V j =p 0).
Proof.
  intros N NV LV H. assert (E : V == []). { intros j. rewrite pc_nil. destruct (Nat.lt_ge_cases j D) as [A|A]; [apply H; exact A|]. rewrite pc_over by lia. reflexivity. } apply (nf_zero p Hp V NV) in E. subst V. apply N. reflexivity.
Qed.
Definition hankel_inverse (Z1 Z2 : list Z) : Prop := nf p Z1 /\ nf p Z2 /\ (length Z1 <= D)%nat /\ (length Z2 <= D)%nat /\
  (forall i, (i < D)%nat -> hmul h D (fun j => pc Z1 (d - j)) i =p delta i 0) /\ (forall i, (i < D)%nat -> hmul h D (fun j => pc Z2 j) i =p delta i d).
Lemma lead_R1 V R w : nf p V -> nf p R -> (length V <= D)%nat -> ~ V == [] -> dlt p R D -> (forall j, (j < D)%nat -> exists j', (j' < D)%nat /\ pc V j =p w j') -> 
  (exists k, (k < D)%nat /\ forall i, (i < D)%nat -> hmul h D w i =p pc R d * delta i k) -> length R = D /\ ~ pc R d =p 0 /\ last R 0 = pc R d.
Proof.
  intros NV NR LV NZ DR W (k & Hk & HW). assert (Rd : ~ pc R d =p 0).
  { intros Z. apply NZ. intros j. rewrite pc_nil. destruct (Nat.lt_ge_cases j D) as [A|A]; [|rewrite pc_over by lia; reflexivity]. destruct (W j A) as (j' & Hj' & ->). apply (NS w); [|exact Hj']. intros i Hi. rewrite HW by exact Hi. rewrite Z, Z.mul_0_l. reflexivity. }
  assert (L : length R = D) by (apply (nf_len p Hp _ _ NR); split; assumption). split; [exact L|]. split; [exact Rd|]. rewrite last_nth, L. unfold pc. f_equal. lia.
Qed.
Lemma invert_hankel_ok pts : (n <= length pts)%nat -> firstn n pts = map h (seq 0 n) ->
  exists r Z1 Z2, invert_hankel p pts D = Some r /\ hankel_inverse Z1 Z2 /\ ((~ pc Z1 0 =p 0 /\ r = HInv Z1 Z2) \/ (pc Z1 0 =p 0 /\ r = HSpecial)).
Proof.
  intros Lp Eq. unfold invert_hankel. destruct (Nat.ltb_spec (length pts) n) as [H|_]; [lia|]. rewrite Eq. set (q := map h (seq 0 n)). assert (Lq : length q = n) by (unfold q; rewrite map_length, seq_length; reflexivity).
  destruct (reduce_points (rev q)) as (B & E & NV & NR & DV & DR & VZ & LV & C); [rewrite rev_length; exact Lq|]. rewrite rev_involutive in C. rewrite E. unfold obind at 1.
  destruct (reduce_points q Lq) as (B2 & E2 & NV2 & NR2 & DV2 & DR2 & VZ2 & LV2 & C2).
  (* the first system *)
  assert (T1 : forall i, (i < D)%nat -> hmul h D (fun j => pc (bV1 B) (d - j)) i =p pc (bR1 B) d * delta i 0).
  { intros i Hi. assert (T : tmul d h (pc (bV1 B)) i =p pc (bR1 B) (i + d)).
    { rewrite <- C by lia. rewrite pc_conv, sumn_rev. unfold tmul. rewrite (sumn_more D (S (i + d))); [|lia|].
      - apply sumn_eqp. intros j Hj. unfold q. rewrite pc_map_seq by lia. replace (i + d - (S (i + d) - 1 - j))%nat with j by lia. replace (S (i + d) - 1 - j)%nat with (i + (d - j))%nat by lia. exists 0. ring.
      - intros j Hj. replace (i + d - (S (i + d) - 1 - j))%nat with j by lia. rewrite (pc_over (bV1 B)) by lia. ring. }
    rewrite tmul_hmul in T. unfold flip in T. rewrite T. unfold delta. destruct (Nat.eqb_spec i 0) as [->|Ne]; [rewrite Z.mul_1_r; reflexivity|]. rewrite Z.mul_0_r. apply DR. lia. }
  assert (T2 : forall i, (i < D)%nat -> hmul h D (fun j => pc (bV1 B2) j) i =p pc (bR1 B2) d * delta i d).
  { intros i Hi. assert (T : hmul h D (fun j => pc (bV1 B2) j) i =p pc (bR1 B2) (n - 1 - i)).
    { rewrite <- C2 by lia. unfold q. rewrite pc_mul_seq by lia. replace (n - 1 - (n - 1 - i))%nat with i by lia. rewrite apply_sum. unfold hmul. rewrite (sumn_more (length (bV1 B2)) D) by (try lia; intros j Hj; rewrite (pc_over (bV1 B2)) by lia; ring). apply sumn_eqp. intros j _. exists 0. ring. }
    rewrite T. unfold delta. destruct (Nat.eqb_spec i d) as [->|Ne]; [replace (n - 1 - d)%nat with d by lia; rewrite Z.mul_1_r; reflexivity|]. rewrite Z.mul_0_r. apply DR2. lia. }
  destruct (lead_R1 (bV1 B) (bR1 B) (fun j => pc (bV1 B) (d - j))) as (LR & RZ & LA); try assumption.
  { intros j Hj. exists (d - j)%nat. split; [lia|]. replace (d - (d - j))%nat with j by lia. reflexivity. }
  { exists 0%nat. split; [lia|exact T1]. }
  destruct (lead_R1 (bV1 B2) (bR1 B2) (fun j => pc (bV1 B2) j)) as (LR2 & RZ2 & LA2); try assumption.
  { intros j Hj. exists j. split; [lia|reflexivity]. }
  { exists d. split; [lia|exact T2]. }
  unfold ndeg. rewrite LR. destruct (Z.ltb_spec (Z.of_nat D - 1) (Z.of_nat D - 1)) as [?|_]; [lia|]. cbn [andb].
  set (Z1 := nscal p (zinv p (last (bR1 B) 0)) (bV1 B)). set (Z2 := nscal p (zinv p (last (bR1 B2) 0)) (bV1 B2)).
  destruct (zinv_ok p Hp _ RZ) as [I1 I1']. destruct (zinv_ok p Hp _ RZ2) as [I2 _].
  assert (HI : hankel_inverse Z1 Z2).
  { split; [apply nf_norm; exact Hp|]. split; [apply nf_norm; exact Hp|]. split; [apply (nf_dlt p Hp); [apply nf_norm; exact Hp|]; unfold Z1; rewrite nscal_peq by exact Hp; apply dlt_scal; exact DV|]. split; [apply (nf_dlt p Hp); [apply nf_norm; exact Hp|]; unfold Z2; rewrite nscal_peq by exact Hp; apply dlt_scal; exact DV2|]. split.
    - intros i Hi. rewrite (hmul_ext _ (fun j => zinv p (pc (bR1 B) d) * pc (bV1 B) (d - j))). 2: { intros j Hj. unfold Z1. rewrite (nscal_peq p Hp _ _ (d - j)%nat), pc_pscal, LA. reflexivity. }
      rewrite (hmul_scal _ (fun j => pc (bV1 B) (d - j))), T1 by exact Hi. rewrite Z.mul_assoc, I1, Z.mul_1_l. reflexivity.
    - intros i Hi. rewrite (hmul_ext _ (fun j => zinv p (pc (bR1 B2) d) * pc (bV1 B2) j)). 2: { intros j Hj. unfold Z2. rewrite (nscal_peq p Hp _ _ j), pc_pscal, LA2. reflexivity. }
      rewrite (hmul_scal _ (fun j => pc (bV1 B2) j)), T2 by exact Hi. rewrite Z.mul_assoc, I2, Z.mul_1_l. reflexivity. }
  assert (P0 : pc Z1 0 =p zinv p (pc (bR1 B) d) * pc (bV1 B) 0) by (unfold Z1; rewrite (nscal_peq p Hp _ _ 0%nat), pc_pscal, LA; reflexivity).
  fold (pc (bV1 B) 0). destruct (Z.eqb_spec (pc (bV1 B) 0) 0) as [Z0|Z0].
  - exists HSpecial, Z1, Z2. split; [reflexivity|]. split; [exact HI|]. right. split; [rewrite P0, Z0, Z.mul_0_r; reflexivity|reflexivity].
  - destruct (bR1 B) as [|r0 R0] eqn:ER; [discriminate LR|]. rewrite E2. unfold obind. destruct (bR1 B2) as [|r2 R2] eqn:ER2; [discriminate LR2|]. exists (HInv Z1 Z2), Z1, Z2. split; [reflexivity|]. split; [exact HI|]. left. split; [|reflexivity].
    intros K. rewrite P0 in K. destruct (eqp_integral p Hp _ _ K) as [K'|K'].
    + apply (one_ne p Hp). rewrite <- I1, K', Z.mul_0_l. reflexivity.
    + apply Z0. apply (eqp_0_small p); [apply nf_pc; assumption|exact K'].
Qed.
End Inv.
