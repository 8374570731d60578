From Coq Require Import ZArith Arith List Bool Lia Znumtheory Setoid Morphisms Sorted.
From Verif Require Import ModInvModel ModInvProofs LinSpec LaSpec LaModel.
Import ListNotations.
Open Scope Z_scope.


(** ** Arrays *)
Lemma drd_dv dr i : (i < length dr)%nat -> drd dr i = Some (dv dr i).
Proof. unfold drd, dv. revert i; induction dr as [|d dr IH]; intros [|i] H; cbn in *; try lia; [reflexivity|]. apply IH. lia. Qed.
Lemma dwr_ok dr : forall i x, (i < length dr)%nat -> exists dr', dwr dr i x = Some dr' /\ length dr' = length dr /\
  forall j, dv dr' j = if (j =? i)%nat then x else dv dr j.
Proof.
  induction dr as [|d dr IH]; intros i x H; cbn in H; [lia|]. destruct i as [|i]; cbn [dwr].
  - eexists. split; [reflexivity|]. split; [reflexivity|]. intros [|j]; reflexivity.
  - destruct (IH i x) as (dr' & -> & L & V); [lia|]. cbn [obind]. eexists. split; [reflexivity|]. split; [cbn; lia|].
    intros [|j]; [reflexivity|]. apply V.
Qed.
Lemma dwr_inv dr : forall i x dr', dwr dr i x = Some dr' -> (i < length dr)%nat.
Proof.
  induction dr as [|d dr IH]; intros [|i] x dr' H; cbn in *; try discriminate; [lia|].
  destruct (dwr dr i x) eqn:E; cbn in H; [|discriminate]. apply IH in E. lia.
Qed.
Lemma dv_ext a b : length a = length b -> (forall j, dv a j = dv b j) -> a = b.
Proof.
  revert b; induction a as [|x a IH]; intros [|y b] L H; cbn in L; try lia; [reflexivity|]. f_equal; [apply (H O)|].
  apply IH; [lia|]. intros j. apply (H (S j)).
Qed.
Lemma dv_overflow dr j : (length dr <= j)%nat -> dv dr j = 0.
Proof. intros H. unfold dv. apply nth_overflow. assumption. Qed.
Lemma dv_repeat n j : dv (repeat 0 n) j = 0.
Proof. unfold dv. revert j; induction n as [|n IH]; intros [|j]; cbn; auto. Qed.

(** ** Pointwise updates of a set of columns *)
Definition upds (u : Z -> Z -> option Z) (ts : srow) (dr dr' : list Z) : Prop :=
  length dr' = length dr /\ (forall j, ~ In j (map fst ts) -> dv dr' j = dv dr j) /\
  (forall t, In t ts -> u (snd t) (dv dr (fst t)) = Some (dv dr' (fst t))).

Lemma upds_fun u ts dr d1 d2 : upds u ts dr d1 -> upds u ts dr d2 -> d1 = d2.
Proof.
  intros (L1 & N1 & U1) (L2 & N2 & U2). apply dv_ext; [lia|]. intros j.
  destruct (in_dec Nat.eq_dec j (map fst ts)) as [Hin|Hn]; [|rewrite N1, N2 by assumption; reflexivity].
  apply in_map_iff in Hin. destruct Hin as (t & <- & Ht). specialize (U1 t Ht). specialize (U2 t Ht). congruence.
Qed.
Lemma upds_nil u dr : upds u [] dr dr.
Proof. repeat split; auto. intros t []. Qed.
Lemma upds_app u a b dr d1 d2 : NoDup (map fst (a ++ b)) -> upds u a dr d1 -> upds u b d1 d2 -> upds u (a ++ b) dr d2.
Proof.
  intros ND (L1 & N1 & U1) (L2 & N2 & U2). rewrite map_app in ND.
  assert (Hdisj : forall j, In j (map fst a) -> ~ In j (map fst b)).
  { clear -ND. induction (map fst a) as [|x l IH]; intros j Hj; [destruct Hj|]. cbn in ND. inversion ND; subst.
    destruct Hj as [->|Hj]; [intros Hb; apply H1, in_or_app; auto|]. apply IH; assumption. }
  split; [lia|]. split.
  - intros j Hn. rewrite map_app in Hn. rewrite N2, N1; auto; intros H; apply Hn, in_or_app; auto.
  - intros t Ht. apply in_app_or in Ht. destruct Ht as [Ht|Ht].
    + rewrite (U1 t Ht). f_equal. symmetry. apply N2. apply Hdisj. apply in_map. assumption.
    + rewrite <- (U2 t Ht). f_equal. symmetry. apply N1. intros Hin. apply (Hdisj _ Hin). apply in_map. assumption.
Qed.
Definition seqo (u v : Z -> Z -> option Z) : Z -> Z -> option Z := fun c d => let? x := u c d in v c x.
Lemma upds_seq u v ts dr d1 d2 : upds u ts dr d1 -> upds v ts d1 d2 -> upds (seqo u v) ts dr d2.
Proof.
  intros (L1 & N1 & U1) (L2 & N2 & U2). split; [lia|]. split.
  - intros j Hn. rewrite N2, N1 by assumption. reflexivity.
  - intros t Ht. unfold seqo. rewrite (U1 t Ht). cbn [obind]. apply U2. assumption.
Qed.
Lemma NoDup_app_r {A} (l m : list A) : NoDup (l ++ m) -> NoDup m.
Proof. induction l as [|x l IH]; cbn; [auto|]. intros H. inversion H; auto. Qed.
Lemma NoDup_app_l {A} (l m : list A) : NoDup (l ++ m) -> NoDup l.
Proof. induction l as [|x l IH]; cbn; intros H; [constructor|]. inversion H; subst. constructor; [intros Hx; apply H2, in_or_app; auto|auto]. Qed.

(** loops of the form [each] compute [upds] *)
Lemma each_upds u (f : nat * Z -> list Z -> option (list Z)) :
  (forall t dr, (fst t < length dr)%nat -> u (snd t) (dv dr (fst t)) <> None -> exists dr', f t dr = Some dr' /\ upds u [t] dr dr') ->
  forall ts dr, NoDup (map fst ts) -> (forall t, In t ts -> (fst t < length dr)%nat /\ u (snd t) (dv dr (fst t)) <> None) ->
  exists dr', each f ts dr = Some dr' /\ upds u ts dr dr'.
Proof.
  intros Hf. induction ts as [|t ts IH]; intros dr ND H; cbn [each].
  - exists dr. split; [reflexivity|apply upds_nil].
  - destruct (H t) as (Hl & Hd); [left; reflexivity|]. destruct (Hf t dr Hl Hd) as (d1 & -> & U1). cbn [obind].
    cbn [map] in ND. inversion ND; subst.
    destruct (IH d1) as (d2 & E2 & U2).
    + assumption.
    + intros t' Ht'. destruct (H t') as (Hl' & Hd'); [right; assumption|]. destruct U1 as (L1 & N1 & _). split; [lia|].
      rewrite N1; [assumption|]. cbn. intros [E|[]]. apply H2. rewrite E. apply in_map. assumption.
    + exists d2. split; [assumption|]. apply (upds_app u [t] ts dr d1 d2); [cbn; constructor; assumption|assumption|assumption].
Qed.
Lemma write_upds (u : Z -> Z -> option Z) t dr x : (fst t < length dr)%nat -> u (snd t) (dv dr (fst t)) = Some x ->
  exists dr', dwr dr (fst t) x = Some dr' /\ upds u [t] dr dr'.
Proof.
  intros Hl Hu. destruct (dwr_ok dr (fst t) x Hl) as (dr' & E & L & V). exists dr'. split; [assumption|]. split; [assumption|]. split.
  - intros j Hn. rewrite V. destruct (Nat.eqb_spec j (fst t)) as [->|]; [|reflexivity]. exfalso. apply Hn. cbn. auto.
  - intros t' [<-|[]]. rewrite V, Nat.eqb_refl. assumption.
Qed.
Lemma add_at_upds k mul t dr : (fst t < length dr)%nat -> kadd k mul (snd t) (dv dr (fst t)) <> None ->
  exists dr', add_at k mul t dr = Some dr' /\ upds (kadd k mul) [t] dr dr'.
Proof.
  intros Hl Hd. unfold add_at. rewrite drd_dv by assumption. cbn [obind]. destruct (kadd k mul (snd t) (dv dr (fst t))) as [x|] eqn:E; [|contradiction].
  cbn [obind]. apply (write_upds (kadd k mul)); assumption.
Qed.
Lemma fix_at_upds k m2 t dr : (fst t < length dr)%nat -> kfix k m2 (dv dr (fst t)) <> None ->
  exists dr', fix_at k m2 t dr = Some dr' /\ upds (fun _ => kfix k m2) [t] dr dr'.
Proof.
  intros Hl Hd. unfold fix_at. rewrite drd_dv by assumption. cbn [obind]. destruct (kfix k m2 (dv dr (fst t))) as [x|] eqn:E; [|contradiction].
  cbn [obind]. apply (write_upds (fun _ => kfix k m2)); assumption.
Qed.

Definition pt (k : kern) (m2 mul : Z) : Z -> Z -> option Z := seqo (kadd k mul) (fun _ => kfix k m2).
Definition defd (k : kern) (m2 mul : Z) (dr : list Z) (ts : srow) : Prop :=
  forall t, In t ts -> (fst t < length dr)%nat /\ pt k m2 mul (snd t) (dv dr (fst t)) <> None.

Lemma singles_ok k m2 mul ts dr : NoDup (map fst ts) -> defd k m2 mul dr ts ->
  exists dr', each (fun t dr => let? x := add_at k mul t dr in fix_at k m2 t x) ts dr = Some dr' /\ upds (pt k m2 mul) ts dr dr'.
Proof.
  intros ND H. apply (each_upds (pt k m2 mul)); [|assumption|assumption].
  clear. intros t dr Hl Hd. unfold pt, seqo in Hd.
  destruct (add_at_upds k mul t dr Hl) as (d1 & -> & U1). { intros E. rewrite E in Hd. apply Hd. reflexivity. }
  cbn [obind]. assert (U1' := U1). destruct U1' as (L1 & _ & E1). specialize (E1 t (or_introl eq_refl)). rewrite E1 in Hd. cbn [obind] in Hd.
  destruct (fix_at_upds k m2 t d1) as (d2 & E2 & U2); [lia|assumption|]. exists d2. split; [assumption|]. eapply upds_seq; eassumption.
Qed.

Lemma block4_ok k m2 mul ts dr : NoDup (map fst ts) -> defd k m2 mul dr ts ->
  exists d1 d2, each (add_at k mul) ts dr = Some d1 /\ each (fix_at k m2) ts d1 = Some d2 /\ upds (pt k m2 mul) ts dr d2.
Proof.
  intros ND H.
  destruct (each_upds (kadd k mul) (add_at k mul) (add_at_upds k mul) ts dr ND) as (d1 & E1 & U1).
  { intros t Ht. destruct (H t Ht) as (Hl & Hd). split; [assumption|]. intros E. apply Hd. unfold pt, seqo. rewrite E. reflexivity. }
  destruct (each_upds (fun _ => kfix k m2) (fix_at k m2) (fix_at_upds k m2) ts d1 ND) as (d2 & E2 & U2).
  { intros t Ht. destruct (H t Ht) as (Hl & Hd). destruct U1 as (L1 & _ & V1). split; [lia|].
    unfold pt, seqo in Hd. rewrite (V1 t Ht) in Hd. exact Hd. }
  exists d1, d2. split; [assumption|]. split; [assumption|]. eapply upds_seq; eassumption.
Qed.

Lemma defd_app k m2 mul a b dr dr' : NoDup (map fst (a ++ b)) -> upds (pt k m2 mul) a dr dr' -> defd k m2 mul dr (a ++ b) -> defd k m2 mul dr' b.
Proof.
  intros ND (L & N & _) H t Ht. destruct (H t) as (Hl & Hd); [apply in_or_app; auto|]. split; [lia|]. rewrite N; [assumption|].
  rewrite map_app in ND. intros Hin. clear -ND Hin Ht. induction (map fst a) as [|x l IH]; [destruct Hin|]. cbn in ND. inversion ND; subst.
  destruct Hin as [->|Hin]; [apply H1, in_or_app; right; apply in_map; assumption|apply IH; assumption].
Qed.
Lemma defd_l k m2 mul a b dr : defd k m2 mul dr (a ++ b) -> defd k m2 mul dr a.
Proof. intros H t Ht. apply H, in_or_app. auto. Qed.

Lemma blocks_ok k m2 mul : forall n r dr, length r = (4 * n)%nat -> NoDup (map fst r) -> defd k m2 mul dr r ->
  exists dr', blocks k m2 mul r dr = Some dr' /\ upds (pt k m2 mul) r dr dr'.
Proof.
  induction n as [|n IH]; intros r dr Hlen ND H.
  - destruct r; [|discriminate]. exists dr. split; [reflexivity|apply upds_nil].
  - destruct r as [|a [|b [|c [|d r]]]]; cbn [length] in Hlen; try lia.
    change (a :: b :: c :: d :: r) with ([a;b;c;d] ++ r) in *.
    assert (ND' : NoDup (map fst [a;b;c;d])) by (rewrite map_app in ND; eapply NoDup_app_l; eassumption).
    destruct (block4_ok k m2 mul [a;b;c;d] dr ND' (defd_l _ _ _ _ _ _ H)) as (d1 & d2 & E1 & E2 & U).
    cbn [blocks app]. rewrite E1. cbn [obind]. rewrite E2. cbn [obind].
    destruct (IH r d2) as (d3 & E3 & U3); [lia| |eapply defd_app; eassumption|].
    + rewrite map_app in ND. eapply NoDup_app_r; eassumption.
    + exists d3. split; [assumption|]. change (a :: b :: c :: d :: r) with ([a;b;c;d] ++ r). eapply upds_app; eassumption.
Qed.

Lemma skipn_multiple {A} (w : nat) (r : list A) : (0 < w)%nat -> exists n, length (skipn (length r mod w) r) = (w * n)%nat.
Proof.
  intros Hw. rewrite skipn_length. exists (length r / w)%nat. pose proof (Nat.div_mod (length r) w ltac:(lia)). lia.
Qed.

Theorem apply_row_upds k p d r dr : -2^63 <= p * p < 2 ^ 63 -> NoDup (map fst r) -> defd k (p * p) (kmul k p d) dr r ->
  exists dr', apply_row k p d r dr = Some dr' /\ upds (pt k (p * p) (kmul k p d)) r dr dr'.
Proof.
  intros Hp ND H. unfold apply_row. rewrite chk_some by (exact Hp). cbn [obind].
  rewrite <- (firstn_skipn (preloop r) r) in ND, H.
  assert (ND' := ND). rewrite map_app in ND'.
  destruct (singles_ok k (p*p) (kmul k p d) (firstn (preloop r) r) dr (NoDup_app_l _ _ ND') (defd_l _ _ _ _ _ _ H)) as (d1 & -> & U1).
  cbn [obind]. destruct (skipn_multiple 4 r ltac:(lia)) as (n & Hn).
  destruct (blocks_ok k (p*p) (kmul k p d) n (skipn (preloop r) r) d1) as (d2 & E2 & U2).
  - exact Hn.
  - exact (NoDup_app_r _ _ ND').
  - eapply defd_app; eassumption.
  - exists d2. split; [assumption|]. rewrite <- (firstn_skipn (preloop r) r). eapply upds_app; eassumption.
Qed.

(** ** Vectorised kernels *)
From Coq Require Import Permutation.
Definition selt (blk : srow) (g : list nat) : srow := map (fun j => nth j blk (O, 0)) g.
Lemma upds_perm u a b dr dr' : Permutation a b -> upds u a dr dr' -> upds u b dr dr'.
Proof.
  intros HP (L & N & U). split; [assumption|]. split.
  - intros j Hn. apply N. intros Hin. apply Hn. eapply Permutation_in; [apply Permutation_map, HP|assumption].
  - intros t Ht. apply U. eapply Permutation_in; [apply Permutation_sym, HP|assumption].
Qed.
Lemma nth_error_selt (blk : srow) j : (j < length blk)%nat -> nth_error blk j = Some (nth j blk (O, 0)).
Proof. intros H. apply nth_error_nth'. assumption. Qed.

Lemma gather_group_ok dr blk g : (forall j, In j g -> (j < length blk)%nat) -> (forall t, In t (selt blk g) -> (fst t < length dr)%nat) ->
  gather_group dr blk g = Some (map (fun t => (fst t, snd t, dv dr (fst t))) (selt blk g)).
Proof.
  induction g as [|j g IH]; intros H1 H2; cbn [gather_group]; [reflexivity|].
  unfold gather1. rewrite nth_error_selt by (apply H1; left; reflexivity). cbn [obind].
  rewrite drd_dv by (apply H2; left; reflexivity). cbn [obind]. rewrite IH; [reflexivity| |]; intros; [apply H1|apply H2]; right; assumption.
Qed.
Lemma lanes_ok k m2 mul (dr : list Z) ts : (forall t, In t ts -> pt k m2 mul (snd t) (dv dr (fst t)) <> None) ->
  exists ys, lanes k m2 mul (map (fun t => (fst t, snd t, dv dr (fst t))) ts) = Some ys /\ map fst ys = map fst ts /\
  Forall2 (fun t y => pt k m2 mul (snd t) (dv dr (fst t)) = Some (snd y)) ts ys.
Proof.
  induction ts as [|t ts IH]; intros H; cbn [map lanes].
  - exists []. repeat split. constructor.
  - assert (Ht := H t (or_introl eq_refl)). destruct (pt k m2 mul (snd t) (dv dr (fst t))) as [x|] eqn:E; [|contradiction].
    unfold pt, seqo in E. unfold lane. cbn [fst snd]. destruct (kadd k mul (snd t) (dv dr (fst t))) as [y|] eqn:E1; cbn [obind] in *; [|discriminate].
    rewrite E. cbn [obind]. destruct IH as (ys & -> & M & F); [intros; apply H; right; assumption|]. cbn [obind].
    eexists. split; [reflexivity|]. cbn [map fst]. split; [congruence|]. constructor; [|assumption]. cbn [snd]. unfold pt, seqo. rewrite E1. exact E.
Qed.
Lemma scatter_upds ys : forall dr, NoDup (map fst ys) -> (forall y, In y ys -> (fst y < length dr)%nat) ->
  exists dr', each (fun y dr => dwr dr (fst y) (snd y)) ys dr = Some dr' /\ upds (fun c _ => Some c) ys dr dr'.
Proof.
  intros dr ND H. apply (each_upds (fun c _ => Some c)); [|assumption|].
  - intros t dr0 Hl _. apply (write_upds (fun c _ => Some c)); [assumption|reflexivity].
  - intros t Ht. split; [auto|discriminate].
Qed.
Lemma simd_group_ok k m2 mul blk g dr : (forall j, In j g -> (j < length blk)%nat) -> NoDup (map fst (selt blk g)) ->
  defd k m2 mul dr (selt blk g) ->
  exists dr', simd_group k m2 mul blk g dr = Some dr' /\ upds (pt k m2 mul) (selt blk g) dr dr'.
Proof.
  intros Hg ND H. unfold simd_group. rewrite gather_group_ok; [|assumption|intros t Ht; apply H; assumption]. cbn [obind].
  destruct (lanes_ok k m2 mul dr (selt blk g)) as (ys & -> & M & F); [intros t Ht; apply H; assumption|]. cbn [obind].
  destruct (scatter_upds ys dr) as (dr' & E & (L & N & U)).
  - rewrite M. assumption.
  - intros y Hy. assert (Hm : In (fst y) (map fst (selt blk g))) by (rewrite <- M; apply in_map; assumption).
    apply in_map_iff in Hm. destruct Hm as (t & Et & Ht). rewrite <- Et. apply H. assumption.
  - exists dr'. split; [assumption|]. split; [assumption|]. rewrite M in N. split; [assumption|].
    intros t Ht. clear -F M U Ht. revert M U Ht. induction F as [|t0 y0 ts ys E F IH]; intros M U Ht; [destruct Ht|].
    cbn [map] in M. injection M as M1 M2. destruct Ht as [->|Ht].
    + rewrite E. rewrite <- M1. apply (U y0). left; reflexivity.
    + apply IH; auto. intros y Hy. apply U. right; assumption.
Qed.
Lemma simd_groups_ok k m2 mul blk : forall gs dr, (forall g j, In g gs -> In j g -> (j < length blk)%nat) ->
  NoDup (map fst (selt blk (concat gs))) -> defd k m2 mul dr (selt blk (concat gs)) ->
  exists dr', each (simd_group k m2 mul blk) gs dr = Some dr' /\ upds (pt k m2 mul) (selt blk (concat gs)) dr dr'.
Proof.
  induction gs as [|g gs IH]; intros dr Hg ND H; cbn [each concat].
  - exists dr. split; [reflexivity|apply upds_nil].
  - cbn [concat] in ND, H. unfold selt in ND, H |- *. rewrite map_app in ND, H |- *. fold (selt blk g) in *. fold (selt blk (concat gs)) in *.
    assert (ND' := ND). rewrite map_app in ND'.
    destruct (simd_group_ok k m2 mul blk g dr) as (d1 & -> & U1).
    + intros j Hj. apply (Hg g); [left; reflexivity|assumption].
    + exact (NoDup_app_l _ _ ND').
    + exact (defd_l _ _ _ _ _ _ H).
    + cbn [obind]. destruct (IH d1) as (d2 & E2 & U2).
      * intros g' j Hg' Hj. apply (Hg g'); [right; assumption|assumption].
      * exact (NoDup_app_r _ _ ND').
      * eapply defd_app; eassumption.
      * exists d2. split; [assumption|]. eapply upds_app; eassumption.
Qed.
Lemma selt_seq (blk : srow) : selt blk (seq 0 (length blk)) = blk.
Proof.
  unfold selt. assert (G : forall (n : nat) l, map (fun j => nth j l (O, 0)) (seq 0 (length l)) = l).
  { intros _ l. induction l as [|x l IH]; [reflexivity|]. cbn [length seq map nth]. f_equal. rewrite <- seq_shift, map_map. exact IH. }
  apply (G O).
Qed.
Lemma simd_blocks_ok k m2 mul w gs : (0 < w)%nat -> Permutation (concat gs) (seq 0 w) ->
  forall n r dr fuel, length r = (w * n)%nat -> (n <= fuel)%nat -> NoDup (map fst r) -> defd k m2 mul dr r ->
  exists dr', simd_blocks fuel w gs k m2 mul r dr = Some dr' /\ upds (pt k m2 mul) r dr dr'.
Proof.
  intros Hw HP. induction n as [|n IH]; intros r dr fuel Hlen Hf ND H.
  - destruct r; [|cbn in Hlen; lia]. exists dr. split; [destruct fuel; reflexivity|apply upds_nil].
  - destruct fuel as [|f]; [lia|]. destruct r as [|t0 r0] eqn:Er; [cbn in Hlen; nia|]. rewrite <- Er in *. 
    assert (E : simd_blocks (S f) w gs k m2 mul r dr = obind (each (simd_group k m2 mul (firstn w r)) gs dr) (fun dr' => simd_blocks f w gs k m2 mul (skipn w r) dr')).
    { rewrite Er. reflexivity. }
    rewrite E. clear E. assert (Hl1 : length (firstn w r) = w) by (rewrite firstn_length; nia).
    rewrite <- (firstn_skipn w r) in ND, H. assert (ND' := ND). rewrite map_app in ND'.
    assert (PP : Permutation (selt (firstn w r) (concat gs)) (firstn w r)).
    { rewrite <- (selt_seq (firstn w r)) at 2. unfold selt. apply Permutation_map. rewrite Hl1. assumption. }
    destruct (simd_groups_ok k m2 mul (firstn w r) gs dr) as (d1 & E1 & U1).
    + intros g j Hg Hj. rewrite Hl1. assert (Hin : In j (concat gs)) by (apply in_concat; eauto).
      apply (Permutation_in _ HP) in Hin. apply in_seq in Hin. lia.
    + eapply Permutation_NoDup; [apply Permutation_map, Permutation_sym, PP|]. exact (NoDup_app_l _ _ ND').
    + intros t Ht. apply (defd_l _ _ _ _ _ _ H). eapply Permutation_in; eassumption.
    + apply (upds_perm _ _ _ _ _ PP) in U1. rewrite E1. cbn [obind].
      destruct (IH (skipn w r) d1 f) as (d2 & E2 & U2).
      * rewrite skipn_length. nia.
      * lia.
      * exact (NoDup_app_r _ _ ND').
      * eapply defd_app; eassumption.
      * exists d2. split; [assumption|]. rewrite <- (firstn_skipn w r). eapply upds_app; eassumption.
Qed.
Theorem simd_same w gs k p d r dr : (0 < w)%nat -> Permutation (concat gs) (seq 0 w) ->
  -2^63 <= p * p < 2 ^ 63 -> NoDup (map fst r) -> defd k (p * p) (kmul k p d) dr r ->
  apply_row_simd w gs k p d r dr = apply_row k p d r dr.
Proof.
  intros Hw HP Hp ND H. destruct (apply_row_upds k p d r dr Hp ND H) as (d0 & -> & U0).
  unfold apply_row_simd. rewrite chk_some by exact Hp. cbn [obind].
  set (os := (length r mod w)%nat). rewrite <- (firstn_skipn os r) in ND, H.
  assert (ND' := ND). rewrite map_app in ND'.
  destruct (singles_ok k (p*p) (kmul k p d) (firstn os r) dr (NoDup_app_l _ _ ND') (defd_l _ _ _ _ _ _ H)) as (d1 & -> & U1).
  cbn [obind]. destruct (skipn_multiple w r Hw) as (n & Hn).
  destruct (simd_blocks_ok k (p*p) (kmul k p d) w gs Hw HP n (skipn os r) d1 (length r)) as (d2 & E2 & U2).
  - exact Hn.
  - assert (length (skipn (length r mod w) r) <= length r)%nat by (rewrite skipn_length; lia). nia.
  - exact (NoDup_app_r _ _ ND').
  - eapply defd_app; eassumption.
  - rewrite E2. f_equal. eapply upds_fun; [|exact U0]. rewrite <- (firstn_skipn os r). eapply upds_app; eassumption.
Qed.

(** ** Arithmetic of one multiply-add *)
Definition kern_ok (k : kern) (p : Z) : Prop :=
  2 <= p /\ p < match k with K8 => 2 ^ 8 | K16 => 2 ^ 16 | K17 => 2 ^ 18 | K31 => 2 ^ 31 end.
(** bound on the entries after n-1 row operations, and the room needed for n of them *)
Definition kb (k : kern) (p : Z) (n : nat) : Z := match k with K31 => p * p | _ => Z.of_nat n * (p * p) end.
Definition kroom (k : kern) (p : Z) (n : nat) : Prop := match k with K31 => True | _ => Z.of_nat n * (p * p) <= 2 ^ 63 end.

Lemma kern_pp k p : kern_ok k p -> 0 < p * p < 2 ^ 62.
Proof. intros (H1 & H2). destruct k; nia. Qed.
Lemma kroom_le k p n m : (n <= m)%nat -> kern_ok k p -> kroom k p m -> kroom k p n.
Proof. intros H HK. pose proof (kern_pp k p HK). destruct k; cbn; auto; nia. Qed.
Lemma kb_le k p n m : (n <= m)%nat -> kern_ok k p -> kb k p n <= kb k p m.
Proof. intros H HK. pose proof (kern_pp k p HK). destruct k; cbn; nia. Qed.

Lemma pt_ok k p n e c d : kern_ok k p -> kroom k p (S n) -> 0 < e < p -> 0 <= c < p -> 0 <= d < kb k p n ->
  exists d', pt k (p * p) (kmul k p e) c d = Some d' /\ 0 <= d' < kb k p (S n) /\ eqp p d' (d - e * c).
Proof.
  intros HK HR He Hc Hd. pose proof (kern_pp k p HK) as Hpp. destruct HK as (H2 & HK). unfold pt, seqo.
  assert (Hmc : 0 <= (p - e) * c < p * p) by nia.
  destruct k; cbn [kmul kadd kfix kb kroom] in *.
  - assert (Hs : p - e < 2 ^ 32) by lia. rewrite (Z.mod_small (p - e)) by lia.
    assert (Hpp' : p * p < 2 ^ 32) by nia. rewrite (Z.mod_small ((p - e) * c)) by lia.
    rewrite chk_some by (rewrite Nat2Z.inj_succ in *; nia). cbn [obind].
    eexists. split; [reflexivity|]. rewrite Nat2Z.inj_succ in *. split; [nia|]. exists c. ring.
  - assert (Hs : p - e < 2 ^ 32) by lia. rewrite (Z.mod_small (p - e)) by lia.
    assert (Hpp' : p * p < 2 ^ 32) by nia. rewrite (Z.mod_small ((p - e) * c)) by lia.
    rewrite chk_some by (rewrite Nat2Z.inj_succ in *; nia). cbn [obind].
    eexists. split; [reflexivity|]. rewrite Nat2Z.inj_succ in *. split; [nia|]. exists c. ring.
  - rewrite chk_some by lia. cbn [obind]. rewrite chk_some by (rewrite Nat2Z.inj_succ in *; nia). cbn [obind].
    eexists. split; [reflexivity|]. rewrite Nat2Z.inj_succ in *. split; [nia|]. exists c. ring.
  - assert (Hec : 0 <= e * c < p * p) by nia. rewrite chk_some by lia. cbn [obind]. rewrite chk_some by lia. cbn [obind].
    pose proof (land_sign 64 (d - e * c) (p * p)) as HLS. change (64 - 1) with 63 in HLS. rewrite HLS by lia. clear HLS.
    destruct (Z.ltb_spec (d - e * c) 0).
    + rewrite chk_some by lia. eexists. split; [reflexivity|]. split; [lia|]. exists p. ring.
    + rewrite chk_some by lia. eexists. split; [reflexivity|]. split; [lia|]. exists 0. ring.
Qed.

(** ** Rows *)

Lemma rv_notin r j : ~ In j (map fst r) -> rv r j = 0.
Proof.
  induction r as [|t r IH]; intros H; cbn; [reflexivity|]. destruct (Nat.eqb_spec (fst t) j) as [E|E].
  - exfalso. apply H. left. assumption.
  - rewrite IH; [reflexivity|]. intros Hin. apply H. right. assumption.
Qed.
Lemma rv_in r t : NoDup (map fst r) -> In t r -> rv r (fst t) = snd t.
Proof.
  induction r as [|t0 r IH]; intros ND Hin; [destruct Hin|]. cbn [map] in ND. inversion ND; subst. cbn.
  destruct Hin as [->|Hin].
  - rewrite Nat.eqb_refl. rewrite rv_notin by assumption. lia.
  - destruct (Nat.eqb_spec (fst t0) (fst t)) as [E|E]; [exfalso; apply H1; rewrite E; apply in_map; assumption|]. rewrite IH by assumption. lia.
Qed.
Lemma pivot_lead p n c r : pivot_row p n c r -> rv r c = 1.
Proof. intros (ND & _ & _ & r' & -> & _). apply (rv_in _ (c, 1) ND). left. reflexivity. Qed.
Lemma pivot_below p n c r j : pivot_row p n c r -> (j < c)%nat -> rv r j = 0.
Proof.
  intros (ND & _ & _ & r' & -> & H) Hj. apply rv_notin. cbn. intros [E|Hin]; [lia|].
  apply in_map_iff in Hin. destruct Hin as (t & <- & Ht). specialize (H t Ht). lia.
Qed.

Lemma apply_row_ok k p ncols n c r e dr : kern_ok k p -> kroom k p (S n) -> pivot_row p ncols c r -> length dr = ncols ->
  0 < e < p -> (forall j, 0 <= dv dr j < kb k p n) ->
  exists dr', apply_row k p e r dr = Some dr' /\ length dr' = ncols /\
  (forall j, eqp p (dv dr' j) (dv dr j - e * rv r j)) /\ (forall j, (j < c)%nat -> dv dr' j = dv dr j) /\
  (forall j, 0 <= dv dr' j < kb k p (S n)).
Proof.
  intros HK HR (ND & HC & HL & r' & Er & Hgt) Hlen He Hb.
  assert (Hpt : forall t, In t r -> exists d', pt k (p*p) (kmul k p e) (snd t) (dv dr (fst t)) = Some d' /\ 0 <= d' < kb k p (S n) /\ eqp p d' (dv dr (fst t) - e * snd t)).
  { intros t Ht. apply pt_ok; auto. }
  destruct (apply_row_upds k p e r dr) as (dr' & E & (L & N & U)).
  - pose proof (kern_pp k p HK). lia.
  - assumption.
  - intros t Ht. split; [rewrite Hlen; auto|]. destruct (Hpt t Ht) as (d' & -> & _). discriminate.
  - exists dr'. split; [assumption|]. split; [lia|].
    assert (Hcase : forall j, (exists t, In t r /\ fst t = j) \/ ~ In j (map fst r)).
    { intros j. destruct (in_dec Nat.eq_dec j (map fst r)) as [Hin|Hn]; [left|right; assumption]. apply in_map_iff in Hin. destruct Hin as (t & Et & Ht). eauto. }
    split; [|split].
    + intros j. destruct (Hcase j) as [(t & Ht & <-)|Hn].
      * destruct (Hpt t Ht) as (d' & E1 & _ & E2). rewrite (U t Ht) in E1. injection E1 as ->. rewrite (rv_in r t ND Ht). assumption.
      * rewrite N, rv_notin by assumption. exists 0. ring.
    + intros j Hj. apply N. rewrite Er. cbn. intros [Ej|Hin]; [lia|]. apply in_map_iff in Hin. destruct Hin as (t & <- & Ht). specialize (Hgt t Ht). lia.
    + intros j. destruct (Hcase j) as [(t & Ht & <-)|Hn].
      * destruct (Hpt t Ht) as (d' & E1 & E2 & _). rewrite (U t Ht) in E1. injection E1 as ->. assumption.
      * rewrite N by assumption. specialize (Hb j). pose proof (kb_le k p n (S n) ltac:(lia) HK). lia.
Qed.

(** ** One column *)
Lemma col_step_ok k p ncols n pv i dr : kern_ok k p -> kroom k p (S n) -> (i < ncols)%nat -> length dr = ncols ->
  (forall r, pv = Some r -> pivot_row p ncols i r) -> (forall j, 0 <= dv dr j < kb k p n) ->
  exists dr' b, col_step k p pv i dr = Some (dr', b) /\ length dr' = ncols /\ (forall j, 0 <= dv dr' j < kb k p (S n)) /\
  (forall j, (j < i)%nat -> dv dr' j = dv dr j) /\ 0 <= dv dr' i < p /\
  (b = true <-> dv dr' i <> 0) /\ (pv <> None -> dv dr' i = 0) /\
  exists e, (forall j, eqp p (dv dr' j) (dv dr j - e * match pv with Some r => rv r j | None => 0 end)).
Proof.
  intros HK HR Hi Hlen Hpv Hb. unfold col_step. rewrite drd_dv by lia. cbn [obind].
  assert (Hp : 2 <= p) by apply HK.
  set (d := if dv dr i =? 0 then dv dr i else Z.rem (dv dr i) p).
  assert (Hd : d = dv dr i mod p).
  { unfold d. destruct (Z.eqb_spec (dv dr i) 0) as [->|_]; [symmetry; apply Z.mod_0_l; lia|]. apply Z.rem_mod_nonneg; [apply Hb|lia]. }
  assert (Hdr : 0 <= d < p) by (rewrite Hd; apply Z.mod_pos_bound; lia).
  assert (Hde : eqp p d (dv dr i)) by (rewrite Hd; apply eqp_mod; lia).
  destruct (dwr_ok dr i d) as (dr0 & E0 & L0 & V0); [lia|]. rewrite E0. cbn [obind].
  assert (Hkb : kb k p n <= kb k p (S n)) by (apply kb_le; [lia|assumption]).
  assert (Hle : d <= dv dr i).
  { rewrite Hd. apply Z.mod_le; [apply Hb|lia]. }
  assert (Hb0 : forall j, 0 <= dv dr0 j < kb k p n).
  { intros j. rewrite V0. destruct (j =? i)%nat; [|apply Hb]. specialize (Hb i). lia. }
  assert (Heq0 : forall j, eqp p (dv dr0 j) (dv dr j)).
  { intros j. rewrite V0. destruct (Nat.eqb_spec j i) as [->|]; [assumption|reflexivity]. }
  assert (Hlt0 : forall j, (j < i)%nat -> dv dr0 j = dv dr j).
  { intros j Hj. rewrite V0. destruct (Nat.eqb_spec j i); [lia|reflexivity]. }
  assert (Hi0 : dv dr0 i = d) by (rewrite V0, Nat.eqb_refl; reflexivity).
  destruct (Z.eqb_spec d 0) as [Ed|Ed].
  - exists dr0, false. split; [reflexivity|]. split; [lia|]. split; [intros j; specialize (Hb0 j); lia|]. split; [assumption|]. rewrite Hi0. split; [lia|].
    split; [split; [discriminate|contradiction]|]. split; [auto|]. exists 0. intros j. rewrite Heq0. exists 0. ring.
  - destruct pv as [r|].
    + destruct (apply_row_ok k p ncols n i r d dr0 HK HR (Hpv r eq_refl)) as (dr1 & E1 & L1 & Q1 & B1 & C1); [lia|lia|assumption|].
      rewrite E1. cbn [obind]. destruct (dwr_ok dr1 i 0) as (dr2 & E2 & L2 & V2); [lia|]. rewrite E2. cbn [obind].
      exists dr2, false. split; [reflexivity|]. split; [lia|].
      assert (HI : dv dr2 i = 0) by (rewrite V2, Nat.eqb_refl; reflexivity).
      split; [intros j; rewrite V2; destruct (j =? i)%nat; [specialize (C1 j); lia|apply C1]|].
      split. { intros j Hj. rewrite V2. destruct (Nat.eqb_spec j i); [lia|]. rewrite B1, Hlt0 by assumption. reflexivity. }
      rewrite HI. split; [lia|]. split; [split; [discriminate|contradiction]|]. split; [auto|].
      exists d. intros j. rewrite V2. destruct (Nat.eqb_spec j i) as [->|Hji].
      * rewrite (pivot_lead p ncols i r) by auto. rewrite Hde. exists 0. ring.
      * rewrite Q1, Heq0. reflexivity.
    + exists dr0, true. split; [reflexivity|]. split; [lia|]. split; [intros j; specialize (Hb0 j); lia|]. split; [assumption|]. rewrite Hi0. split; [lia|].
      split; [split; auto|]. split; [contradiction|]. exists 0. intros j. rewrite Heq0. exists 0. ring.
Qed.
