From Coq Require Import ZArith Arith List Bool Lia Sorted Permutation.
From Verif Require Import ModInvModel FglmSpec LnullSpec LnullModel.
Import ListNotations.
Open Scope nat_scope.

Lemma put_app {A} (a : list A) x b v : put (length a) v (a ++ x :: b) = Some (a ++ v :: b).
Proof. induction a as [|y a IH]; cbn [length app put]; [reflexivity|]. rewrite IH. reflexivity. Qed.

Lemma put_spec {A} (v : A) : forall l i, i < length l -> exists l', put i v l = Some l' /\ length l' = length l /\
  forall k d, nth k l' d = if k =? i then v else nth k l d.
Proof.
  induction l as [|x l IH]; intros i Hi; cbn [length] in Hi; [lia|]. destruct i as [|i].
  - exists (v :: l). split; [reflexivity|]. split; [reflexivity|]. intros [|k] d; reflexivity.
  - destruct (IH i) as (l' & E & L & H); [lia|]. exists (x :: l'). cbn [put]. rewrite E. split; [reflexivity|]. split; [cbn; lia|].
    intros [|k] d; [reflexivity|]. cbn [nth Nat.eqb]. apply H.
Qed.

Lemma fill_ok : forall n lo a b c, length b = n -> fill lo n (a ++ b ++ c, length a) = Some (a ++ seq lo n ++ c, length a + n).
Proof.
  induction n as [|n IH]; intros lo a b c Hb.
  - destruct b; [|discriminate]. cbn. do 2 f_equal. lia.
  - destruct b as [|x b]; [discriminate|]. cbn [fill fst snd app]. rewrite put_app. cbn [obind].
    replace (S (length a)) with (length (a ++ [lo])) by (rewrite app_length; cbn; lia).
    replace (a ++ lo :: b ++ c) with ((a ++ [lo]) ++ b ++ c) by (rewrite <- app_assoc; reflexivity).
    rewrite IH by (cbn in Hb; lia). f_equal. f_equal; [rewrite <- app_assoc; reflexivity|rewrite app_length; cbn; lia].
Qed.

(** the integers in [lo, nr) outside [P] *)
Fixpoint gaps (nr lo : nat) (P : list nat) : list nat :=
  match P with [] => seq lo (nr - lo) | q :: P' => seq lo (q - lo) ++ gaps nr (S q) P' end.

Definition between (nr lo : nat) (P : list nat) := StronglySorted lt P /\ (forall q, In q P -> lo <= q < nr).

Lemma between_cons nr lo q P : between nr lo (q :: P) -> lo <= q < nr /\ between nr (S q) P.
Proof.
  intros [H1 H2]. inversion H1 as [|? ? H3 H4]; subst. rewrite Forall_forall in H4. split; [apply H2; left; auto|]. split; auto.
  intros x Hx. specialize (H4 x Hx). specialize (H2 x (or_intror Hx)). lia.
Qed.

Lemma gaps_length nr : forall P lo, between nr lo P -> lo <= nr -> length (gaps nr lo P) + length P + lo = nr.
Proof.
  induction P as [|q P IH]; intros lo H Hl; cbn [gaps length].
  - rewrite seq_length. lia.
  - apply between_cons in H as [H1 H2]. rewrite app_length, seq_length. specialize (IH (S q) H2 ltac:(lia)). lia.
Qed.

Lemma gaps_in nr : forall P lo x, between nr lo P -> In x (gaps nr lo P) <-> lo <= x < nr /\ ~ In x P.
Proof.
  induction P as [|q P IH]; intros lo x H; cbn [gaps].
  - rewrite in_seq. cbn. lia.
  - pose proof H as [_ H0]. apply between_cons in H as [H1 H2]. rewrite in_app_iff, in_seq, IH by auto. cbn [In].
    assert (G : In x P -> S q <= x) by (intros Hx; apply H2 in Hx; lia).
    split.
    + intros [Hx|[Hx Hn]]; (split; [lia|]); intros [E|E]; try lia; auto. apply G in E. lia.
    + intros [Hx Hn]. destruct (Nat.lt_trichotomy x q) as [L|[L|L]]; [left; lia|exfalso; auto|right]. split; [lia|auto].
Qed.

Lemma seq_sorted : forall n lo, StronglySorted lt (seq lo n).
Proof. induction n as [|n IH]; intros lo; cbn; constructor; auto. apply Forall_forall. intros x Hx. apply in_seq in Hx. lia. Qed.

Lemma sorted_app2 (a b : list nat) : StronglySorted lt a -> StronglySorted lt b -> (forall x y, In x a -> In y b -> x < y) -> StronglySorted lt (a ++ b).
Proof.
  induction a as [|x a IH]; intros Ha Hb H; auto. inversion Ha as [|? ? H1 H2]; subst. cbn [app]. constructor.
  - apply IH; auto. intros; apply H; auto. right; auto.
  - apply Forall_app. split; auto. apply Forall_forall. intros y Hy. apply H; auto. left; auto.
Qed.

Lemma gaps_sorted nr : forall P lo, between nr lo P -> StronglySorted lt (gaps nr lo P).
Proof.
  induction P as [|q P IH]; intros lo H; cbn [gaps]; [apply seq_sorted|]. apply between_cons in H as [H1 H2].
  apply sorted_app2; [apply seq_sorted|auto|]. intros x y Hx Hy. apply in_seq in Hx. apply gaps_in in Hy; auto. lia.
Qed.

Lemma sorted_nodup (l : list nat) : StronglySorted lt l -> NoDup l.
Proof. induction 1 as [|a l H IH F]; constructor; auto. intros Hin. rewrite Forall_forall in F. apply F in Hin. lia. Qed.

(** the loop over consecutive pivots and the last one *)
Lemma gap_loop_ok nr : forall P q done a b c, between nr (S q) P -> length b = length (gaps nr (S q) P) -> c = done ++ q :: P ->
  let st := (a ++ b ++ c, length a) in
  exists s2, gap_loop (length P) (length a + length b + length done) st = Some s2 /\
    nth_error (fst s2) (length a + length b + length done + length P) = Some (last (q :: P) 0) /\
    fill (S (last (q :: P) 0)) (nr - S (last (q :: P) 0)) s2 = Some (a ++ gaps nr (S q) P ++ c, length a + length b).
Proof.
  induction P as [|q' P IH]; intros q done a b c HB Hb Hc st.
  - exists st. cbn [length gap_loop]. split; [reflexivity|]. cbn [last]. split.
    + subst st c. cbn [fst]. rewrite Nat.add_0_r. rewrite nth_error_app2 by lia. rewrite nth_error_app2 by lia. rewrite nth_error_app2 by lia.
      replace (_ - _ - _ - _) with 0 by lia. reflexivity.
    + cbn [gaps] in *. rewrite seq_length in Hb. subst st. rewrite fill_ok by auto. do 2 f_equal. lia.
  - pose proof HB as HB0. apply between_cons in HB as [H1 H2]. cbn [gaps] in Hb. rewrite app_length, seq_length in Hb.
    cbn [length gap_loop].
    assert (E1 : nth_error (fst st) (length a + length b + length done) = Some q).
    { subst st c. cbn [fst]. do 3 rewrite nth_error_app2 by lia. replace (_ - _ - _ - _) with 0 by lia. reflexivity. }
    assert (E2 : nth_error (fst st) (S (length a + length b + length done)) = Some q').
    { subst st c. cbn [fst]. do 3 rewrite nth_error_app2 by lia. replace (_ - _ - _ - _) with 1 by lia. reflexivity. }
    rewrite E1, E2. cbn [obind].
    set (b1 := firstn (q' - S q) b). set (b2 := skipn (q' - S q) b).
    assert (Eb : b = b1 ++ b2) by (symmetry; apply firstn_skipn).
    assert (L1 : length b1 = q' - S q) by (unfold b1; rewrite firstn_length; lia).
    assert (L2 : length b2 = length (gaps nr (S q') P)) by (unfold b2; rewrite skipn_length; lia).
    assert (Est : st = (a ++ b1 ++ b2 ++ c, length a)) by (subst st; rewrite Eb, <- app_assoc; reflexivity).
    rewrite Est, fill_ok by auto. cbn [obind].
    destruct (IH q' (done ++ [q]) (a ++ seq (S q) (q' - S q)) b2 c H2 L2) as (s2 & G1 & G2 & G3).
    { rewrite Hc, <- app_assoc. reflexivity. }
    assert (Ea : length (a ++ seq (S q) (q' - S q)) = length a + (q' - S q)) by (rewrite app_length, seq_length; reflexivity).
    rewrite Ea in *. rewrite app_length in G1, G2. cbn [length] in G1, G2.
    exists s2. split; [|split].
    + replace (S (length a + length b + length done)) with (length a + (q' - S q) + length b2 + (length done + 1)) by (rewrite Eb, app_length; lia).
      rewrite app_assoc. exact G1.
    + replace (length a + length b + length done + S (length P)) with (length a + (q' - S q) + length b2 + (length done + 1) + length P) by (rewrite Eb, app_length; lia).
      exact G2.
    + change (last (q :: q' :: P) 0) with (last (q' :: P) 0). rewrite G3. cbn [gaps]. rewrite <- !app_assoc. do 2 f_equal. rewrite Eb, app_length. lia.
Qed.

Lemma omap_ok {A} (f : nat -> option A) g : forall l, (forall i, In i l -> f i = Some (g i)) -> omap f l = Some (map g l).
Proof.
  induction l as [|i l IH]; intros H; [reflexivity|]. cbn [omap map]. rewrite H by (left; auto). cbn [obind]. rewrite IH by (intros; apply H; right; auto). reflexivity.
Qed.

Section K.
Variable (p : Z) (nr nc : nat) (A K : nat -> nat -> Z) (N : list nat) (Xt : list (list Z)).
Hypothesis HK : kernel p nr nc A K N.
Hypothesis HX : forall i j, i < nr -> j < length N -> entry Xt i j = Some (K i j).

Lemma NB : between nr 0 N.
Proof. split; [apply (k_asc _ _ _ _ _ _ HK)|]. intros q Hq. apply (k_lt _ _ _ _ _ _ HK) in Hq. lia. Qed.

Lemma N_le : length N <= nr.
Proof. pose proof (gaps_length nr N 0 NB ltac:(lia)). lia. Qed.

Lemma nthN i : i < length N -> nth i N 0 < nr.
Proof. intros H. apply (k_lt _ _ _ _ _ _ HK). apply nth_In. auto. Qed.

Lemma last_nz_ok i : i < length N -> last_nz Xt i nr = Some (nth i N 0).
Proof.
  intros Hi. assert (G : forall k, nth i N 0 < k <= nr -> last_nz Xt i k = Some (nth i N 0)); [|apply G; pose proof (nthN i Hi); lia].
  induction k as [|k IH]; intros Hk; [lia|]. cbn [last_nz]. rewrite HX by lia. cbn [obind].
  destruct (Nat.eq_dec k (nth i N 0)) as [->|Hne].
  - rewrite (k_one _ _ _ _ _ _ HK) by auto. rewrite Nat.eqb_refl. reflexivity.
  - rewrite (k_low _ _ _ _ _ _ HK) by lia. cbn. apply IH. lia.
Qed.

Lemma piv_loop_ok rank : forall rest i a b, length a = rank -> i + length rest = length N -> rest = skipn i N -> length b = length rest ->
  piv_loop Xt nr rank (length rest) i (a ++ firstn i N ++ b) = Some (a ++ N).
Proof.
  induction rest as [|q rest IH]; intros i a b Ha Hi Hr Hb; cbn [length piv_loop].
  - cbn in Hi. destruct b; [|discriminate]. rewrite firstn_all2 by lia. rewrite app_nil_r. reflexivity.
  - cbn [length] in *. rewrite last_nz_ok by lia. cbn [obind]. destruct b as [|x b]; [discriminate|].
    assert (Hq : nth i N 0 = q).
    { rewrite <- (firstn_skipn i N), <- Hr. rewrite app_nth2; rewrite firstn_length; [|lia]. replace (_ - _) with 0 by lia. reflexivity. }
    assert (Hn : firstn (S i) N = firstn i N ++ [q]).
    { rewrite <- (firstn_skipn i N) at 1. rewrite <- Hr, firstn_app, firstn_firstn, firstn_length. replace (Nat.min (S i) i) with i by lia.
      replace (S i - _) with 1 by lia. reflexivity. }
    assert (Hs : skipn (S i) N = rest).
    { rewrite <- (firstn_skipn i N) at 1. rewrite <- Hr, skipn_app, skipn_all2 by (rewrite firstn_length; lia). rewrite firstn_length. replace (S i - _) with 1 by lia. reflexivity. }
    replace (rank + i) with (length (a ++ firstn i N)) by (rewrite app_length, firstn_length; lia).
    rewrite app_assoc, put_app. cbn [obind]. rewrite Hq.
    replace ((a ++ firstn i N) ++ q :: b) with (a ++ firstn (S i) N ++ b) by (rewrite Hn, <- !app_assoc; reflexivity).
    apply IH; auto; lia.
Qed.

Definition Perm := gaps nr 0 N ++ N.
Definition rank := nr - length N.

Lemma gaps_len : length (gaps nr 0 N) = rank.
Proof. pose proof (gaps_length nr N 0 NB ltac:(lia)). unfold rank. lia. Qed.

Lemma Perm_low j : j < rank -> nth_error Perm j = Some (nth j (gaps nr 0 N) 0).
Proof. intros H. unfold Perm. rewrite nth_error_app1 by (rewrite gaps_len; auto). apply nth_error_nth'. rewrite gaps_len; auto. Qed.
Lemma Perm_high i : i < length N -> nth_error Perm (rank + i) = Some (nth i N 0).
Proof. intros H. unfold Perm. rewrite nth_error_app2 by (rewrite gaps_len; lia). rewrite gaps_len. replace (rank + i - rank) with i by lia. apply nth_error_nth'. auto. Qed.

Lemma gap_nth j : j < rank -> nth j (gaps nr 0 N) 0 < nr /\ ~ In (nth j (gaps nr 0 N) 0) N.
Proof. intros H. assert (G : In (nth j (gaps nr 0 N) 0) (gaps nr 0 N)) by (apply nth_In; rewrite gaps_len; auto). apply gaps_in in G; [|apply NB]. split; [lia|tauto]. Qed.

Lemma compact_ok perm0 : length perm0 = nr ->
  compact Xt nr (length N) perm0 = Some (Perm, map (fun i => map (fun j => K (nth j (gaps nr 0 N) 0) i) (seq 0 rank)) (seq 0 (length N))).
Proof.
  intros H0. unfold compact. fold rank. pose proof NB as HB. pose proof N_le as HL. pose proof gaps_len as HG.
  destruct (Nat.eqb_spec (length N) 0) as [E|E].
  - assert (EN : N = []) by (destruct N; [reflexivity|discriminate]). unfold Perm. rewrite EN. cbn [gaps length seq map]. rewrite app_nil_r, Nat.sub_0_r. reflexivity.
  - set (a := firstn rank perm0). set (b := skipn rank perm0).
    assert (La : length a = rank) by (unfold a; rewrite firstn_length; unfold rank; lia).
    assert (Lb : length b = length N) by (unfold b; rewrite skipn_length; unfold rank; lia).
    pose proof (piv_loop_ok rank N 0 a b La ltac:(lia) eq_refl Lb) as HP. cbn [firstn app] in HP.
    replace (a ++ b) with perm0 in HP by (symmetry; apply firstn_skipn). rewrite HP. cbn [obind].
    assert (EN : exists q P, N = q :: P) by (destruct N as [|q P]; [exfalso; apply E; reflexivity|exists q, P; reflexivity]). destruct EN as (q & P & EN).
    rewrite EN in HB, HG, HL, Lb. replace (a ++ N) with (a ++ q :: P) by (rewrite EN; reflexivity). assert (LN : length N = S (length P)) by (rewrite EN; reflexivity). assert (HR : rank = nr - S (length P)) by (unfold rank; rewrite LN; reflexivity).
    rewrite nth_error_app2 by lia. rewrite La, Nat.sub_diag. cbn [nth_error obind].
    pose proof HB as HB'. apply between_cons in HB' as [H1 H2].
    cbn [gaps] in HG. rewrite app_length, seq_length in HG.
    set (a1 := firstn (q - 0) a). set (a2 := skipn (q - 0) a).
    assert (L1 : length a1 = q - 0) by (unfold a1; rewrite firstn_length; lia).
    assert (L2 : length a2 = length (gaps nr (S q) P)) by (unfold a2; rewrite skipn_length; lia).
    replace (a ++ q :: P) with (a1 ++ a2 ++ q :: P) by (unfold a1, a2; rewrite app_assoc, firstn_skipn; reflexivity).
    pose proof (fill_ok (q - 0) 0 [] a1 (a2 ++ q :: P) L1) as HF. cbn [app length Nat.add] in HF. rewrite Nat.sub_0_r in HF. rewrite HF. cbn [obind].
    destruct (gap_loop_ok nr P q [] (seq 0 q) a2 (q :: P) H2 L2 eq_refl) as (s2 & G1 & G2 & G3).
    rewrite seq_length in G1, G2, G3. cbn [length] in G1, G2, G3. rewrite !Nat.add_0_r in G1, G2. cbn [length] in *.
    replace (q + length a2) with rank in G1, G2 by lia.
    replace (nr - 1 - rank) with (length P) by lia. rewrite G1. cbn [obind].
    replace (nr - 1) with (rank + length P) by lia. rewrite G2. cbn [obind]. rewrite G3. cbn [obind fst].
    replace (seq 0 q ++ gaps nr (S q) P ++ q :: P) with Perm by (unfold Perm; rewrite EN; cbn [gaps]; rewrite Nat.sub_0_r, <- app_assoc; reflexivity).
    rewrite (omap_ok _ (fun i => map (fun j => K (nth j (gaps nr 0 N) 0) i) (seq 0 rank))).
    + cbn [obind]. rewrite EN. reflexivity.
    + intros i Hi. apply in_seq in Hi. apply omap_ok. intros j Hj. apply in_seq in Hj. rewrite Perm_low by lia. cbn [obind]. rewrite EN.
      pose proof (gap_nth j ltac:(lia)) as [G _]. rewrite EN in G. apply HX; [exact G|cbn; lia].
Qed.
End K.

Section K2.
Variable (p : Z) (nr nc : nat) (A K : nat -> nat -> Z) (N : list nat) (Xt : list (list Z)).
Hypothesis HK : kernel p nr nc A K N.
Hypothesis HX : forall i j, i < nr -> j < length N -> entry Xt i j = Some (K i j).
Let G := gaps nr 0 N.
Let rk := rank nr N.

Lemma scatter_ok i : i < length N -> forall cnt j row, length row = nr -> j + cnt = rk ->
  exists row', scatter (Perm nr N) (map (fun j => K (nth j G 0) i) (seq 0 rk)) j cnt row = Some row' /\ length row' = nr /\
    forall r, nth r row' 0%Z = if existsb (fun q => r =? nth q G 0) (seq j cnt) then K r i else nth r row 0%Z.
Proof.
  intros Hi. induction cnt as [|c IH]; intros j row Hl Hj.
  - exists row. cbn. auto.
  - cbn [scatter]. unfold rk in *. rewrite (Perm_low p nr nc A K N HK) by lia. fold G. cbn [obind].
    rewrite (map_nth_error _ j _ (d := j)) by (rewrite (nth_error_nth' _ 0) by (rewrite seq_length; lia); rewrite seq_nth by lia; reflexivity). cbn [obind].
    destruct (gap_nth p nr nc A K N HK j ltac:(lia)) as [G1 _]. fold G in G1.
    destruct (put_spec (K (nth j G 0) i) row (nth j G 0)) as (row1 & E1 & L1 & N1); [lia|]. rewrite E1. cbn [obind].
    destruct (IH (S j) row1) as (row' & E2 & L2 & N2); [lia|lia|]. exists row'. split; [exact E2|]. split; [exact L2|].
    intros r. rewrite N2, N1. cbn [seq existsb]. destruct (Nat.eqb_spec r (nth j G 0)) as [->|]; cbn [orb]; [|reflexivity].
    destruct (existsb _ _); reflexivity.
Qed.

Lemma omap_ex {B} (f : nat -> option B) (Q : nat -> B -> Prop) d : forall l, (forall i, In i l -> exists x, f i = Some x /\ Q i x) ->
  exists xs, omap f l = Some xs /\ length xs = length l /\ forall k, k < length l -> Q (nth k l 0) (nth k xs d).
Proof.
  induction l as [|i l IH]; intros H; [exists []; cbn; repeat split; auto; lia|].
  destruct (H i (or_introl eq_refl)) as (x & E & HQ). destruct IH as (xs & E2 & L & H2); [intros; apply H; right; auto|].
  exists (x :: xs). cbn [omap]. rewrite E, E2. split; [reflexivity|]. split; [cbn; lia|]. intros [|k] Hk; [exact HQ|]. cbn in *. apply H2. lia.
Qed.

Lemma in_N_nth x : In x N -> exists k, k < length N /\ nth k N 0 = x.
Proof. intros H. destruct (In_nth N x 0 H) as (k & H1 & H2). eauto. Qed.

Lemma left_nullspace_ok perm0 : length perm0 = nr -> exists X, left_nullspace Xt nr (length N) perm0 = Some X /\ length X = length N /\
  forall i, i < length N -> length (nth i X []) = nr /\ forall r, r < nr -> nth r (nth i X []) 0%Z = K r i.
Proof.
  intros H0. unfold left_nullspace. rewrite (compact_ok p nr nc A K N Xt HK HX perm0 H0). cbn [obind fst snd]. fold (rank nr N). fold rk. fold G.
  match goal with |- context [omap ?f ?l] => destruct (omap_ex f (fun i row => length row = nr /\ forall r, r < nr -> nth r row 0%Z = K r i) [] l) as (X & E & L & H) end.
  - intros i Hi. apply in_seq in Hi. assert (Hi' : i < length N) by lia. unfold rk. rewrite (Perm_high p nr nc A K N HK) by auto. cbn [obind].
    pose proof (nthN p nr nc A K N HK i Hi') as Hn.
    destruct (put_spec 1%Z (repeat 0%Z nr) (nth i N 0)) as (row & E1 & L1 & N1); [rewrite repeat_length; auto|]. rewrite E1. cbn [obind].
    rewrite (map_nth_error _ i _ (d := i)) by (rewrite (nth_error_nth' _ 0) by (rewrite seq_length; lia); rewrite seq_nth by lia; reflexivity). cbn [obind].
    rewrite repeat_length in L1.
    destruct (scatter_ok i Hi' rk 0 row L1 eq_refl) as (row' & E2 & L2 & N2). exists row'. split; [exact E2|]. split; [exact L2|].
    intros r Hr. rewrite N2. destruct (existsb _ _) eqn:EX; [reflexivity|]. rewrite N1.
    assert (Hin : In r N).
    { destruct (in_dec Nat.eq_dec r N) as [|Hn']; auto. exfalso.
      assert (HG : In r G) by (apply gaps_in; [apply (NB p nr nc A K N HK)|]; split; [lia|auto]).
      destruct (In_nth G r 0 HG) as (k & Hk & Ek). unfold G in Hk. rewrite (gaps_len p nr nc A K N HK) in Hk. fold rk in Hk.
      assert (existsb (fun q => r =? nth q G 0) (seq 0 rk) = true); [|congruence]. apply existsb_exists. exists k. split; [apply in_seq; lia|]. rewrite Ek. apply Nat.eqb_refl. }
    destruct (in_N_nth r Hin) as (k & Hk & <-). rewrite (k_one _ _ _ _ _ _ HK) by auto.
    destruct (Nat.eqb_spec (nth k N 0) (nth i N 0)) as [Eq|Ne].
    + assert (k = i). { apply (proj1 (NoDup_nth N 0) (sorted_nodup N (k_asc _ _ _ _ _ _ HK))); auto. } subst. rewrite Nat.eqb_refl. reflexivity.
    + destruct (Nat.eqb_spec i k) as [->|]; [congruence|]. apply nth_repeat.
  - rewrite seq_length in *. exists X. split; [exact E|]. split; [exact L|]. intros i Hi. specialize (H i Hi). rewrite seq_nth in H by auto. exact H.
Qed.
End K2.
