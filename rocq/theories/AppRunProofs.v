From Coq Require Import ZArith Arith List Bool Lia Permutation Setoid Morphisms Znumtheory Sorted.
From Verif Require Import ModInvModel LinSpec FglmSpec MatVecProofs LnullSpec LnullModel LnullProofs LnullProps AppSpec AppModel AppProofs.
Import ListNotations.
Open Scope Z_scope.

(** FLINT's kernel, for the matrices of [m] rows and [n] columns. *)
Definition ker_ok (p : Z) (m n : nat) (ker : (nat -> nat -> Z) -> list (list Z) * nat) : Prop :=
  forall M, exists K N, kernel p m n M K N /\ snd (ker M) = length N /\ given (fst (ker M)) m K N.

Lemma kernel_coords p m n M K N v : kernel p m n M K N -> leftnull p m n M v -> forall r, (r < m)%nat ->
  eqp p (v r) (sumn (length N) (fun i => v (nth i N 0%nat) * K r i)).
Proof.
  intros HK Hv r Hr. destruct (k_gen _ _ _ _ _ _ HK v Hv) as (c & Hc). rewrite (Hc r Hr). apply sumn_eqp. intros i Hi.
  rewrite (Hc (nth i N 0%nat) (nthN p m n M K N HK i Hi)).
  rewrite (sumn_ext _ (fun k => c k * K (nth i N 0%nat) k) (fun k => if (k =? i)%nat then c k else 0)).
  - rewrite sumn_delta by auto. reflexivity.
  - intros k Hk. rewrite (k_one _ _ _ _ _ _ HK) by auto. destruct (k =? i)%nat; ring.
Qed.

Lemma ins_perm a : forall l, Permutation (ins a l) (a :: l).
Proof.
  induction l as [|b l IH]; cbn [ins]; [reflexivity|]. destruct (pair_le a b); [reflexivity|]. rewrite IH. apply perm_swap.
Qed.
Lemma isort_perm : forall l, Permutation (isort l) l.
Proof. induction l as [|a l IH]; cbn [isort]; [reflexivity|]. rewrite ins_perm, IH. reflexivity. Qed.
Lemma shift_perm_ok m s : Permutation (shift_perm m s) (seq 0 m).
Proof.
  unfold shift_perm. rewrite (Permutation_map snd (isort_perm (map (fun i => (s i, i)) (seq 0 m)))). rewrite map_map. cbn [snd]. rewrite map_id. reflexivity.
Qed.

Lemma sumn_window k lb ub f : (ub <= k)%nat -> (forall d, (d < lb)%nat -> (d < k)%nat -> f d = 0) -> (forall d, (ub <= d < k)%nat -> f d = 0) ->
  sumn k f = sumn (ub - lb) (fun e => f (lb + e)%nat).
Proof.
  intros Hu H1 H2. rewrite (sumn_more ub k) by auto. destruct (Nat.le_gt_cases ub lb) as [H|H].
  - replace (ub - lb)%nat with O by lia. cbn [sumn]. apply sumn_zero_ext. intros i Hi. apply H1; lia.
  - replace ub with (lb + (ub - lb))%nat at 1 by lia. rewrite sumn_app. rewrite (sumn_zero_ext lb) by (intros i Hi; apply H1; lia). ring.
Qed.

Section R.
Variable (p : Z) (m n flen : nat) (F : nat -> nat -> nat -> Z) (ker : (nat -> nat -> Z) -> list (list Z) * nat).
Hypothesis Hp : p <> 0.
Hypothesis Hker : ker_ok p m n ker.
Hypothesis HF : forall d r c, (flen <= d)%nat -> F d r c = 0.
Notation G B t r c := (mulc m (fun e j => B e r j) F t c).

Record inv (ord : nat) (st : state) : Prop := {
  i_basis : basis_of p m n F ord (co st);
  i_len : (1 <= ln st)%nat;
  i_zero : forall d r j, (ln st <= d)%nat -> co st d r j = 0;
  i_one : ord = 0%nat -> co st = one }.

Lemma res_ok ord st r c : inv ord st -> (r < m)%nat ->
  eqp p ((if (ord =? 0)%nat then F 0%nat else mul_coeff p m (ln st) flen (co st) F ord) r c) (G (co st) ord r c).
Proof.
  intros [_ _ HZ HO] Hr. destruct (Nat.eqb_spec ord 0) as [->|Hne].
  - rewrite (HO eq_refl). unfold mulc. cbn [sumn Nat.sub]. rewrite (sumn_ext m _ (fun k => if (k =? r)%nat then F 0%nat k c else 0)).
    + rewrite sumn_delta by auto. rewrite Z.add_0_l. reflexivity.
    + intros k Hk. unfold one. rewrite Nat.eqb_sym. destruct (k =? r)%nat; ring.
  - unfold mul_coeff. rewrite eqp_mod by auto. unfold mulc. rewrite (sumn_window (S ord) (ord + 1 - flen) (Nat.min (ord + 1) (ln st))).
    + reflexivity.
    + lia.
    + intros d Hd1 Hd2. apply sumn_zero_ext. intros k Hk. rewrite HF by lia. ring.
    + intros d Hd. apply sumn_zero_ext. intros k Hk. rewrite HZ by lia. ring.
Qed.

Lemma nth_map_nat (f : nat -> nat) l i : (i < length l)%nat -> nth i (map f l) 0%nat = f (nth i l 0%nat).
Proof. intros H. rewrite (nth_indep _ 0%nat (f 0%nat)) by (rewrite map_length; auto). apply map_nth. Qed.

Lemma piv_perm perm P : Permutation perm (seq 0 m) -> Permutation P (seq 0 m) -> Permutation (map (fun q => nth q perm 0%nat) P) (seq 0 m).
Proof.
  intros H1 H2. rewrite (Permutation_map _ H2). pose proof (Permutation_length H1) as L. rewrite seq_length in L.
  pose proof (map_nth_seq (fun x => x) perm) as E. rewrite map_id, L in E. rewrite <- E. exact H1.
Qed.

Lemma update_ok ord st perm K N R Y : inv ord st -> Permutation perm (seq 0 m) ->
  kernel p m n (fun i c => (if (ord =? 0)%nat then F 0%nat else mul_coeff p m (ln st) flen (co st) F ord) (nth i perm 0%nat) c) K N ->
  Permutation (R ++ N) (seq 0 m) -> length R = (m - length N)%nat -> (length N <= m)%nat ->
  (forall i j, (i < length N)%nat -> (j < length R)%nat -> entry Y i j = Some (K (nth j R 0%nat) i)) ->
  inv (S ord) (update p m (length N) perm (R ++ N) Y st).
Proof.
  intros HI HP HK HRN HR HN HY. set (res := if (ord =? 0)%nat then F 0%nat else mul_coeff p m (ln st) flen (co st) F ord) in *.
  pose proof (res_ok ord st) as RO. fold res in RO.
  set (rank := (m - length N)%nat) in *. set (null := length N) in *.
  set (piv := map (fun q => nth q perm 0%nat) (R ++ N)).
  pose proof (piv_perm perm (R ++ N) HP HRN) as HPiv. fold piv in HPiv.
  assert (LP : length (R ++ N) = m) by (rewrite (Permutation_length HRN), seq_length; reflexivity).
  assert (Hpiv : forall i, (i < m)%nat -> nth i piv 0%nat = nth (nth i (R ++ N) 0%nat) perm 0%nat).
  { intros i Hi. unfold piv. rewrite nth_map_nat by (rewrite LP; exact Hi). reflexivity. }
  assert (PR : forall k, (k < rank)%nat -> nth k (R ++ N) 0%nat = nth k R 0%nat) by (intros k Hk; apply app_nth1; lia).
  assert (PN : forall i, nth (rank + i) (R ++ N) 0%nat = nth i N 0%nat) by (intros i; rewrite app_nth2 by lia; f_equal; lia).
  set (B1 := fun d i j => co st d (nth i piv 0%nat) j).
  set (Yf := fun i k => nth k (nth i Y []) 0).
  assert (HYf : forall i k, (i < null)%nat -> (k < rank)%nat -> Yf i k = K (nth k R 0%nat) i).
  { intros i k Hi Hk. specialize (HY i k Hi ltac:(lia)). unfold entry, obind in HY. unfold Yf. destruct (nth_error Y i) as [row|] eqn:E1; [|discriminate].
    rewrite (nth_error_nth Y i [] E1). apply nth_error_nth. exact HY. }
  assert (Hm : m = (rank + null)%nat) by (unfold rank; lia).
  assert (HM : forall i c, (i < m)%nat -> eqp p (res (nth (nth i (R ++ N) 0%nat) perm 0%nat) c) (G B1 ord i c)).
  { intros i c Hi. rewrite <- (Hpiv i Hi). apply RO; auto. apply (perm_lt m); auto. }
  assert (HB1 : basis_of p m n F ord B1) by (apply basis_permute; [exact HPiv|apply (i_basis _ _ HI)]).
  assert (HU : basis_of p m n F (S ord) (fun d i j => if (i <? rank)%nat then match d with O => 0 | S e => B1 e i j end else B1 d i j + sumn rank (fun k => Yf (i - rank)%nat k * B1 d k j))).
  { apply (basis_update p m n F rank null ord B1 Yf Hm HB1).
    - intros i c Hi Hc. pose proof (k_null _ _ _ _ _ _ HK i Hi c Hc) as HZ. cbv beta in HZ.
      rewrite (sum_perm m (R ++ N) _ HRN) in HZ. rewrite Hm in HZ at 1. rewrite sumn_app in HZ. rewrite <- HZ. rewrite Z.add_comm. apply eqp_add.
      + apply sumn_eqp. intros k Hk. rewrite HYf by auto. rewrite <- (HM k c ltac:(lia)). rewrite PR by auto. reflexivity.
      + rewrite (sumn_ext null _ (fun k => if (k =? i)%nat then res (nth (nth k N 0%nat) perm 0%nat) c else 0)).
        * rewrite sumn_delta by auto. rewrite <- (HM (rank + i)%nat c ltac:(lia)). rewrite PN. reflexivity.
        * intros k Hk. rewrite PN. rewrite (k_one _ _ _ _ _ _ HK) by auto. rewrite Nat.eqb_sym. destruct (k =? i)%nat; ring.
    - intros v Hv k Hk. set (w := fun s => v (idx s (R ++ N))).
      assert (Hw : leftnull p m n (fun i c => res (nth i perm 0%nat) c) w).
      { intros c Hc. rewrite (sum_perm m (R ++ N) _ HRN). rewrite <- (Hv c Hc). apply sumn_eqp. intros i Hi. unfold w. rewrite (idx_nth m) by auto. rewrite (HM i c Hi). reflexivity. }
      assert (HRk : (nth k R 0 < m)%nat) by (rewrite <- PR by auto; apply (perm_lt m); auto; lia).
      pose proof (kernel_coords p m n _ K N w HK Hw (nth k R 0%nat) HRk) as HC. unfold w in HC.
      rewrite <- (PR k Hk) in HC at 1. rewrite (idx_nth m) in HC by (auto; lia). rewrite HC. apply sumn_eqp. intros i Hi.
      rewrite <- (PN i). rewrite (idx_nth m) by (auto; lia). rewrite (HYf i k) by auto. reflexivity. }
  pose proof (inv_perm m piv HPiv) as HInv.
  pose proof (basis_permute p m n F (S ord) _ _ HInv HU) as HF4.
  assert (Hin : forall r, (r < m)%nat -> nth r (map (fun r => idx r piv) (seq 0 m)) 0%nat = idx r piv).
  { intros r Hr. rewrite nth_map_nat by (rewrite seq_length; auto). rewrite seq_nth by auto. reflexivity. }
  assert (HZ1 : forall d i j, (ln st <= d)%nat -> B1 d i j = 0) by (intros d i j Hd; apply (i_zero _ _ HI); auto).
  pose proof (i_len _ _ HI) as HL.
  constructor.
  - eapply basis_ext; [|exact HF4]. intros d r j Hr Hj. cbv beta. rewrite (Hin r Hr). destruct (idx_lt m piv r HPiv Hr) as [Hi _]. set (i := idx r piv) in *.
    unfold update. cbn [co]. fold rank piv. fold i. cbv zeta.
    change (fun d0 i0 j0 : nat => co st d0 (nth i0 piv 0%nat) j0) with B1.
    destruct (Nat.ltb_spec i rank) as [Hir|Hir].
    + match goal with |- context [if existsb ?f ?l then _ else _] => destruct (existsb f l) eqn:EG end.
      * destruct (Nat.ltb_spec d (S (ln st))); [destruct d; [reflexivity|reflexivity]|]. destruct d as [|d]; [reflexivity|]. rewrite HZ1 by lia. reflexivity.
      * destruct (Nat.ltb_spec d (ln st)); [destruct d; [reflexivity|reflexivity]|]. destruct d as [|d]; [reflexivity|].
        destruct (Nat.eq_dec d (ln st - 1)) as [->|Hd]; [|rewrite HZ1 by lia; reflexivity].
        assert (E0 : co st (ln st - 1)%nat (nth i piv 0%nat) j = 0); [|unfold B1; rewrite E0; reflexivity].
        destruct (Z.eqb_spec (co st (ln st - 1)%nat (nth i piv 0%nat) j) 0) as [E0|E0]; [exact E0|]. exfalso.
        match type of EG with ?x = false => assert (x = true); [|congruence] end.
        apply existsb_exists. exists i. split; [apply in_seq; lia|]. apply existsb_exists. exists j. split; [apply in_seq; lia|].
        destruct (Nat.ltb_spec i rank); [|lia]. apply negb_true_iff, Z.eqb_neq. exact E0.
    + destruct (Nat.ltb_spec d (ln st)).
      * rewrite eqp_mod by auto. reflexivity.
      * change (co st d (nth i piv 0%nat) j) with (B1 d i j). rewrite HZ1 by lia. rewrite Z.add_0_l. rewrite (sumn_zero_ext rank); [reflexivity|]. intros k Hk. rewrite HZ1 by lia. ring.
  - unfold update. cbn [ln]. destruct (existsb _ _); lia.
  - intros d r j. unfold update. cbn [ln co]. cbv zeta. match goal with |- context [if existsb ?f ?l then _ else _] => destruct (existsb f l) end; intros Hd;
      (match goal with |- (if ?b then _ else _) = 0 => destruct b end;
       [match goal with |- (if (?x <? ?y)%nat then _ else _) = 0 => destruct (Nat.ltb_spec x y); [lia|reflexivity] end|
        match goal with |- (if (?x <? ?y)%nat then _ else _) = 0 => destruct (Nat.ltb_spec x y); [lia|apply (i_zero _ _ HI); lia] end]) || idtac.
  - discriminate.
Qed.
End R.
