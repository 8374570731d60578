From Coq Require Import ZArith Arith List Bool Lia Permutation Setoid Morphisms Znumtheory.
From Verif Require Import ModInvModel LinSpec FglmSpec MatVecProofs LnullSpec LnullModel LnullProofs AppSpec AppModel.
Import ListNotations.
Open Scope Z_scope.

Lemma tri_swap h : forall t, sumn (S t) (fun s => sumn (S s) (fun d => h d (s - d)%nat)) = sumn (S t) (fun d => sumn (S (t - d)) (fun e => h d e)).
Proof.
  induction t as [|t IH]; [reflexivity|].
  change (sumn (S (S t)) (fun s => sumn (S s) (fun d => h d (s - d)%nat))) with
    (sumn (S t) (fun s => sumn (S s) (fun d => h d (s - d)%nat)) + sumn (S (S t)) (fun d => h d (S t - d)%nat)).
  rewrite IH. change (sumn (S (S t)) (fun d => h d (S t - d)%nat)) with (sumn (S t) (fun d => h d (S t - d)%nat) + h (S t) (S t - S t)%nat).
  change (sumn (S (S t)) (fun d => sumn (S (S t - d)) (fun e => h d e))) with
    (sumn (S t) (fun d => sumn (S (S t - d)) (fun e => h d e)) + sumn (S (S t - S t)) (fun e => h (S t) e)).
  rewrite Nat.sub_diag. change (sumn 1 (fun e => h (S t) e)) with (0 + h (S t) 0%nat). rewrite Z.add_0_l, Z.add_assoc. f_equal. rewrite <- sumn_add. apply sumn_ext. intros d Hd.
  replace (S t - d)%nat with (S (t - d)) by lia. reflexivity.
Qed.

Lemma mulc_assoc m a B F t c : mulc m (fun d j => mulc m a B d j) F t c =
  sumn (S t) (fun d => sumn m (fun r => a d r * mulc m (fun e j => B e r j) F (t - d)%nat c)).
Proof.
  set (h := fun d e => sumn m (fun r => a d r * sumn m (fun k => B e r k * F (t - d - e)%nat k c))).
  transitivity (sumn (S t) (fun s => sumn (S s) (fun d => h d (s - d)%nat))).
  - unfold mulc at 1. apply sumn_ext. intros s Hs. unfold mulc.
    rewrite (sumn_ext m _ (fun k => sumn (S s) (fun d => sumn m (fun r => a d r * B (s - d)%nat r k * F (t - s)%nat k c)))).
    + rewrite sumn_swap. apply sumn_ext. intros d Hd. rewrite sumn_swap. unfold h. apply sumn_ext. intros r Hr. rewrite <- sumn_scal. apply sumn_ext. intros k Hk.
      replace (t - d - (s - d))%nat with (t - s)%nat by lia. ring.
    + intros k Hk. rewrite <- sumn_scal_r. apply sumn_ext. intros d Hd. rewrite <- sumn_scal_r. reflexivity.
  - rewrite tri_swap. apply sumn_ext. intros d Hd. unfold h, mulc. rewrite sumn_swap. apply sumn_ext. intros r Hr. rewrite sumn_scal. reflexivity.
Qed.

Lemma mulc_eqp p m a a' B B' t j : (forall d r, (d <= t)%nat -> (r < m)%nat -> eqp p (a d r) (a' d r)) ->
  (forall d r, (d <= t)%nat -> (r < m)%nat -> eqp p (B d r j) (B' d r j)) -> eqp p (mulc m a B t j) (mulc m a' B' t j).
Proof.
  intros Ha HB. unfold mulc. apply sumn_eqp. intros d Hd. apply sumn_eqp. intros r Hr. rewrite (Ha d r), (HB (t - d)%nat r) by lia. reflexivity.
Qed.

(** sums over a permutation of the indices *)
Definition zl (l : list Z) : Z := fold_right Z.add 0 l.
Lemma zl_perm l l' : Permutation l l' -> zl l = zl l'.
Proof. induction 1; cbn [zl fold_right]; unfold zl in *; cbn [fold_right] in *; lia. Qed.
Lemma zl_app a b : zl (a ++ b) = zl a + zl b.
Proof. induction a as [|x a IH]; [reflexivity|]. change (zl ((x :: a) ++ b)) with (x + zl (a ++ b)). change (zl (x :: a)) with (x + zl a). rewrite IH. ring. Qed.
Lemma sumn_zl m f : sumn m f = zl (map f (seq 0 m)).
Proof. induction m as [|m IH]; [reflexivity|]. rewrite seq_S, map_app, zl_app. cbn [sumn]. rewrite IH. cbn. ring. Qed.
Lemma map_nth_seq {A} (f : nat -> A) (l : list nat) : map f l = map (fun i => f (nth i l 0%nat)) (seq 0 (length l)).
Proof.
  induction l as [|x l IH]; [reflexivity|]. cbn [length seq map nth]. f_equal. rewrite <- seq_shift, map_map. exact IH.
Qed.
Lemma sum_perm m l f : Permutation l (seq 0 m) -> sumn m f = sumn m (fun i => f (nth i l 0%nat)).
Proof.
  intros H. rewrite !sumn_zl. rewrite <- (zl_perm _ _ (Permutation_map f H)). rewrite (map_nth_seq f l).
  rewrite (Permutation_length H), seq_length. reflexivity.
Qed.

Lemma perm_lt m l i : Permutation l (seq 0 m) -> (i < m)%nat -> (nth i l 0 < m)%nat.
Proof.
  intros H Hi. assert (I : In (nth i l 0%nat) (seq 0 m)). { apply (Permutation_in _ H). apply nth_In. rewrite (Permutation_length H), seq_length. auto. }
  apply in_seq in I. lia.
Qed.
Lemma idx_spec r : forall l, In r l -> (idx r l < length l)%nat /\ nth (idx r l) l 0%nat = r.
Proof.
  induction l as [|x l IH]; intros H; [destruct H|]. cbn [idx]. destruct (Nat.eqb_spec x r) as [->|Hn]; [cbn; split; [lia|auto]|].
  destruct H as [|H]; [congruence|]. destruct (IH H). cbn. split; [lia|auto].
Qed.
Lemma perm_nodup m l : Permutation l (seq 0 m) -> NoDup l.
Proof. intros H. apply (Permutation_NoDup (Permutation_sym H)), seq_NoDup. Qed.
Lemma perm_in m l r : Permutation l (seq 0 m) -> (r < m)%nat -> In r l.
Proof. intros H Hr. apply (Permutation_in _ (Permutation_sym H)). apply in_seq. lia. Qed.
Lemma idx_nth m l i : Permutation l (seq 0 m) -> (i < m)%nat -> idx (nth i l 0%nat) l = i.
Proof.
  intros H Hi. pose proof (Permutation_length H) as L. rewrite seq_length in L.
  destruct (idx_spec (nth i l 0%nat) l) as [H1 H2]; [apply nth_In; lia|].
  apply (proj1 (NoDup_nth l 0%nat) (perm_nodup _ _ H)); auto; lia.
Qed.
Lemma idx_lt m l r : Permutation l (seq 0 m) -> (r < m)%nat -> (idx r l < m)%nat /\ nth (idx r l) l 0%nat = r.
Proof. intros H Hr. pose proof (Permutation_length H) as L. rewrite seq_length in L. rewrite <- L at 1. apply idx_spec. apply (perm_in m); auto. Qed.
Lemma inv_perm m l : Permutation l (seq 0 m) -> Permutation (map (fun r => idx r l) (seq 0 m)) (seq 0 m).
Proof.
  intros H. apply NoDup_Permutation; [|apply seq_NoDup|].
  - rewrite <- (map_map (fun r => r) (fun r => idx r l)), map_id. 
    assert (G : forall s, NoDup s -> (forall r, In r s -> (r < m)%nat) -> NoDup (map (fun r => idx r l) s)).
    { induction s as [|x s IH]; intros N I; cbn; [constructor|]. inversion N; subst. constructor; [|apply IH; auto; intros; apply I; right; auto].
      rewrite in_map_iff. intros (y & E & Hy). assert (x = y); [|subst; auto].
      rewrite <- (proj2 (idx_lt m l x H (I x (or_introl eq_refl)))), <- (proj2 (idx_lt m l y H (I y (or_intror Hy)))). rewrite E. reflexivity. }
    apply G; [apply seq_NoDup|]. intros r Hr. apply in_seq in Hr. lia.
  - intros x. rewrite in_map_iff, in_seq. split.
    + intros (r & <- & Hr). apply in_seq in Hr. pose proof (idx_lt m l r H ltac:(lia)). lia.
    + intros Hx. exists (nth x l 0%nat). split; [apply (idx_nth m); auto; lia|]. apply in_seq. pose proof (perm_lt m l x H ltac:(lia)). lia.
Qed.

Section M.
Variable (p : Z) (m n : nat) (F : nat -> nat -> nat -> Z).
Notation basis := (basis_of p m n F).
Notation G B t r c := (mulc m (fun e j => B e r j) F t c).

Lemma basis_ext s B B' : (forall d r j, (r < m)%nat -> (j < m)%nat -> eqp p (B' d r j) (B d r j)) -> basis s B -> basis s B'.
Proof.
  intros E [H1 H2 H3]. constructor.
  - intros r Hr t c Ht Hc. rewrite <- (H1 r Hr t c Ht Hc). apply mulc_eqp; [|reflexivity]. intros d j _ Hj. apply E; auto.
  - intros q Hq Ha. destruct (H2 q Hq Ha) as (a & P & Q). exists a. split; auto. intros t j Hj. rewrite (Q t j Hj). apply mulc_eqp; [reflexivity|]. intros d r _ Hr. symmetry. apply E; auto.
  - intros a Ha. apply H3. intros t j Hj. rewrite <- (Ha t j Hj). apply mulc_eqp; [reflexivity|]. intros d r _ Hr. symmetry. apply E; auto.
Qed.

Lemma basis_permute s B l : Permutation l (seq 0 m) -> basis s B -> basis s (fun d i j => B d (nth i l 0%nat) j).
Proof.
  intros P [H1 H2 H3]. constructor.
  - intros r Hr. apply H1. apply (perm_lt m); auto.
  - intros q Hq Ha. destruct (H2 q Hq Ha) as (a & [D PD] & Q). exists (fun d i => a d (nth i l 0%nat)). split.
    + exists D. intros d r Hd Hr. apply PD; auto. apply (perm_lt m); auto.
    + intros t j Hj. rewrite (Q t j Hj). unfold mulc. apply sumn_eqp. intros d Hd. rewrite (sum_perm m l (fun r => a d r * B (t - d)%nat r j) P). reflexivity.
  - intros a Ha d r Hr. rewrite <- (idx_nth m l r P Hr). apply (H3 (fun d i => a d (idx i l))); [|apply (perm_lt m); auto].
    intros t j Hj. rewrite <- (Ha t j Hj). unfold mulc. apply sumn_eqp. intros e He. rewrite (sum_perm m l (fun r => a e (idx r l) * B (t - e)%nat r j) P).
    apply sumn_eqp. intros i Hi. rewrite (idx_nth m) by auto. reflexivity.
Qed.

Lemma basis_same s B : (forall r c, (r < m)%nat -> (c < n)%nat -> eqp p (G B s r c) 0) -> basis s B -> basis (S s) B.
Proof.
  intros H [H1 H2 H3]. constructor; auto.
  - intros r Hr t c Ht Hc. destruct (Nat.eq_dec t s) as [->|]; [apply H; auto|]. apply H1; auto. lia.
  - intros q Hq Ha. apply H2; auto. intros t c Ht Hc. apply Ha; auto.
Qed.

Section U.
Variable (rank null s : nat) (B : nat -> nat -> nat -> Z) (Y : nat -> nat -> Z).
Hypothesis Hm : m = (rank + null)%nat.
Hypothesis HB : basis s B.
Hypothesis Hnull : forall i c, (i < null)%nat -> (c < n)%nat -> eqp p (G B s (rank + i)%nat c + sumn rank (fun k => Y i k * G B s k c)) 0.
Hypothesis Hgen : forall v, (forall c, (c < n)%nat -> eqp p (sumn m (fun r => v r * G B s r c)) 0) ->
  forall k, (k < rank)%nat -> eqp p (v k) (sumn null (fun i => v (rank + i)%nat * Y i k)).
Let B3 d i j := if (i <? rank)%nat then match d with O => 0 | S e => B e i j end else B d i j + sumn rank (fun k => Y (i - rank)%nat k * B d k j).

Lemma sum_shift (f g : nat -> Z) t : f t = 0 -> g O = 0 -> (forall d, (d < t)%nat -> g (S d) = f d) -> sumn (S t) f = sumn (S t) g.
Proof. intros Hf Hg H. rewrite (sumn_S t g). cbn [sumn]. rewrite Hf, Hg, Z.add_0_r, Z.add_0_l. apply sumn_ext. intros d Hd. symmetry. apply H. auto. Qed.

Lemma update_product a a' : (forall d i, (i < null)%nat -> eqp p (a d (rank + i)%nat) (a' d (rank + i)%nat)) ->
  (forall d k, (k < rank)%nat -> eqp p (a d k) (match d with O => 0 | S e => a' e k end + sumn null (fun i => a' d (rank + i)%nat * Y i k))) ->
  forall t j, eqp p (mulc m a B t j) (mulc m a' B3 t j).
Proof.
  intros H1 H2 t j.
  set (top := fun d k => match d with O => 0 | S e => a' e k end).
  transitivity (sumn (S t) (fun d => sumn rank (fun k => (top d k + sumn null (fun i => a' d (rank + i)%nat * Y i k)) * B (t - d)%nat k j)
     + sumn null (fun i => a' d (rank + i)%nat * B (t - d)%nat (rank + i)%nat j))).
  { unfold mulc. apply sumn_eqp. intros d Hd. rewrite Hm, sumn_app. apply eqp_add; apply sumn_eqp; intros k Hk; [rewrite (H2 d k Hk)|rewrite (H1 d k Hk)]; reflexivity. }
  transitivity (sumn (S t) (fun d => sumn rank (fun k => top d k * B (t - d)%nat k j)) +
     sumn (S t) (fun d => sumn null (fun i => a' d (rank + i)%nat * (B (t - d)%nat (rank + i)%nat j + sumn rank (fun k => Y i k * B (t - d)%nat k j))))).
  { rewrite <- sumn_add. apply sumn_eqp. intros d Hd.
    replace (sumn null (fun i => a' d (rank + i)%nat * (B (t - d)%nat (rank + i)%nat j + sumn rank (fun k => Y i k * B (t - d)%nat k j))))
      with (sumn null (fun i => a' d (rank + i)%nat * B (t - d)%nat (rank + i)%nat j) + sumn rank (fun k => sumn null (fun i => a' d (rank + i)%nat * Y i k) * B (t - d)%nat k j)).
    - rewrite (sumn_ext rank _ (fun k => top d k * B (t - d)%nat k j + sumn null (fun i => a' d (rank + i)%nat * Y i k) * B (t - d)%nat k j)) by (intros; ring).
      rewrite sumn_add. exists 0. ring.
    - rewrite (sumn_ext rank _ (fun k => sumn null (fun i => a' d (rank + i)%nat * Y i k * B (t - d)%nat k j))) by (intros k Hk; rewrite <- sumn_scal_r; reflexivity).
      rewrite sumn_swap, <- sumn_add. apply sumn_ext. intros i Hi. rewrite Z.mul_add_distr_l. f_equal. rewrite <- sumn_scal. apply sumn_ext. intros k Hk. ring. }
  transitivity (sumn (S t) (fun d => sumn rank (fun k => a' d k * B3 (t - d)%nat k j)) + sumn (S t) (fun d => sumn null (fun i => a' d (rank + i)%nat * B3 (t - d)%nat (rank + i)%nat j))).
  2:{ rewrite <- sumn_add. unfold mulc. apply sumn_eqp. intros d Hd. rewrite Hm, sumn_app. reflexivity. }
  apply eqp_add.
  - rewrite (sum_shift (fun d => sumn rank (fun k => a' d k * B3 (t - d)%nat k j)) (fun d => sumn rank (fun k => top d k * B (t - d)%nat k j))); [reflexivity| | |].
    + apply sumn_zero_ext. intros k Hk. rewrite Nat.sub_diag. unfold B3. destruct (Nat.ltb_spec k rank); [ring|lia].
    + apply sumn_zero_ext. intros k Hk. unfold top. ring.
    + intros d Hd. apply sumn_ext. intros k Hk. unfold top, B3. destruct (Nat.ltb_spec k rank); [|lia]. replace (t - d)%nat with (S (t - S d)) by lia. reflexivity.
  - apply sumn_eqp. intros d Hd. apply sumn_eqp. intros i Hi. unfold B3. destruct (Nat.ltb_spec (rank + i) rank); [lia|]. replace (rank + i - rank)%nat with i by lia. reflexivity.
Qed.

Lemma basis_update : basis (S s) B3.
Proof.
  destruct HB as [H1 H2 H3]. constructor.
  - intros r Hr t c Ht Hc. destruct (Nat.lt_ge_cases r rank) as [Hl|Hl].
    + destruct t as [|t].
      * unfold mulc. cbn [sumn]. rewrite (sumn_zero_ext m); [reflexivity|]. intros k Hk. unfold B3. destruct (Nat.ltb_spec r rank); [ring|lia].
      * rewrite <- (H1 r Hr t c ltac:(lia) Hc). unfold mulc. rewrite (sumn_S (S t)). rewrite (sumn_zero_ext m) by (intros k Hk; unfold B3; destruct (Nat.ltb_spec r rank); [ring|lia]).
        rewrite Z.add_0_l. apply sumn_eqp. intros d Hd. apply sumn_eqp. intros k Hk. unfold B3. destruct (Nat.ltb_spec r rank); [|lia]. reflexivity.
    + assert (E : G B3 t r c = G B t r c + sumn rank (fun k => Y (r - rank)%nat k * G B t k c)).
      { unfold mulc. rewrite (sumn_ext rank _ (fun k => sumn (S t) (fun d => sumn m (fun l => Y (r - rank)%nat k * B d k l * F (t - d)%nat l c)))).
        - rewrite (sumn_swap rank (S t) (fun k d => sumn m (fun l => Y (r - rank)%nat k * B d k l * F (t - d)%nat l c))), <- sumn_add. apply sumn_ext. intros d Hd.
          rewrite (sumn_swap rank m (fun k l => Y (r - rank)%nat k * B d k l * F (t - d)%nat l c)), <- sumn_add. apply sumn_ext. intros l Hll. unfold B3.
          destruct (Nat.ltb_spec r rank); [lia|]. rewrite Z.mul_add_distr_r, <- sumn_scal_r. reflexivity.
        - intros k Hk. rewrite <- sumn_scal. apply sumn_ext. intros d Hd. rewrite <- sumn_scal. apply sumn_ext. intros l Hll. ring. }
      rewrite E. destruct (Nat.eq_dec t s) as [->|Hts].
      * pose proof (Hnull (r - rank)%nat c ltac:(lia) Hc) as Q. replace (rank + (r - rank))%nat with r in Q by lia. exact Q.
      * rewrite (H1 r Hr t c) by (auto; lia). rewrite Z.add_0_l. rewrite <- (sumn_zero rank). apply sumn_eqp. intros k Hk. rewrite (H1 k ltac:(lia) t c) by (auto; lia). rewrite Z.mul_0_r. reflexivity.
  - intros q Hq Ha. destruct (H2 q Hq) as (a & [D PD] & Q); [intros t c Ht Hc; apply Ha; auto|].
    assert (V : forall c, (c < n)%nat -> eqp p (sumn m (fun r => a O r * G B s r c)) 0).
    { intros c Hc. rewrite <- (Ha s c ltac:(lia) Hc). transitivity (mulc m (fun d j => mulc m a B d j) F s c).
      - rewrite mulc_assoc, sumn_S. rewrite Nat.sub_0_r. rewrite <- (Z.add_0_r (sumn m _)) at 1. apply eqp_add; [reflexivity|]. symmetry. rewrite <- (sumn_zero s). apply sumn_eqp. intros d Hd.
        rewrite <- (sumn_zero m). apply sumn_eqp. intros r Hr. rewrite (H1 r Hr (s - S d)%nat c) by (auto; lia). rewrite Z.mul_0_r. reflexivity.
      - apply mulc_eqp; [|reflexivity]. intros d r _ Hr. symmetry. apply Q. auto. }
    set (a' := fun d r => if (r <? rank)%nat then a (S d) r - sumn null (fun i => a (S d) (rank + i)%nat * Y i r) else a d r).
    exists a'. split.
    + exists D. intros d r Hd Hr. unfold a'. destruct (Nat.ltb_spec r rank); [|apply PD; auto].
      rewrite (PD (S d) r) by lia. rewrite <- (Z.sub_diag 0) at 2. apply eqp_sub; [reflexivity|]. rewrite <- (sumn_zero null). apply sumn_eqp. intros i Hi. rewrite (PD (S d) (rank + i)%nat) by lia. rewrite Z.mul_0_l. reflexivity.
    + intros t j Hj. rewrite (Q t j Hj). apply update_product.
      * intros d i Hi. unfold a'. destruct (Nat.ltb_spec (rank + i) rank); [lia|reflexivity].
      * intros d k Hk. assert (R : sumn null (fun i => a' d (rank + i)%nat * Y i k) = sumn null (fun i => a d (rank + i)%nat * Y i k)).
        { apply sumn_ext. intros i Hi. unfold a'. destruct (Nat.ltb_spec (rank + i) rank); [lia|reflexivity]. }
        rewrite R. destruct d as [|d]; [rewrite Z.add_0_l; apply (Hgen (a O)); auto|]. unfold a'. destruct (Nat.ltb_spec k rank); [|lia].
        rewrite Z.sub_add. reflexivity.
  - intros a' Ha'. set (a := fun d r => if (r <? rank)%nat then match d with O => 0 | S e => a' e r end + sumn null (fun i => a' d (rank + i)%nat * Y i r) else a' d r).
    assert (Z0 : forall d r, (r < m)%nat -> eqp p (a d r) 0).
    { apply H3. intros t j Hj. rewrite (update_product a a'); [apply Ha'; auto| |].
      - intros d i Hi. unfold a. destruct (Nat.ltb_spec (rank + i) rank); [lia|reflexivity].
      - intros d k Hk. unfold a. destruct (Nat.ltb_spec k rank); [reflexivity|lia]. }
    assert (Zn : forall d i, (i < null)%nat -> eqp p (a' d (rank + i)%nat) 0).
    { intros d i Hi. rewrite <- (Z0 d (rank + i)%nat) by lia. unfold a. destruct (Nat.ltb_spec (rank + i) rank); [lia|reflexivity]. }
    intros d r Hr. destruct (Nat.lt_ge_cases r rank) as [Hl|Hl]; [|replace r with (rank + (r - rank))%nat by lia; apply Zn; lia].
    rewrite <- (Z0 (S d) r Hr). unfold a. destruct (Nat.ltb_spec r rank); [|lia]. rewrite <- (Z.add_0_r (a' d r)) at 1. apply eqp_add; [reflexivity|].
    symmetry. rewrite <- (sumn_zero null). apply sumn_eqp. intros i Hi. rewrite (Zn (S d) i Hi). rewrite Z.mul_0_l. reflexivity.
Qed.
End U.
End M.
