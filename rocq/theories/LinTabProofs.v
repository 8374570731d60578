(** The table of linear forms of a reduced Groebner basis. *)
From Coq Require Import ZArith NArith Arith List Bool Lia Sorted Znumtheory.
From Verif Require Import LinSpec MonoSpec MonoSpecProofs HilbSpec GbSpec GbProofs GbIdeal FglmSpec ModInvModel FglmModel MatVecProofs BuildModel StairProofs BuildProofs BasisProofs.
Import ListNotations.
Open Scope nat_scope.

Lemma upd_nat_fun n : forall (a : nat) (f : nat -> nat) k x, k < n -> upd_nat (map f (seq a n)) k x = Some (map (fun j => if j =? a + k then x else f j) (seq a n)).
Proof.
  induction n as [|n IH]; intros a f k x Hk; [lia|]. cbn [seq map]. destruct k as [|k]; cbn [upd_nat].
  - rewrite Nat.add_0_r, Nat.eqb_refl. do 2 f_equal. apply map_ext_in. intros j Hj. apply in_seq in Hj. destruct (Nat.eqb_spec j a); [lia|reflexivity].
  - rewrite IH by lia. cbn [obind]. destruct (Nat.eqb_spec a (a + S k)); [lia|]. do 2 f_equal. apply map_ext. intros j. replace (S a + k) with (a + S k) by lia. reflexivity.
Qed.
Lemma upd_fun n : forall (a : nat) (f : nat -> Z) k x, k < n -> upd (map f (seq a n)) k x = Some (map (fun j => if j =? a + k then x else f j) (seq a n)).
Proof.
  induction n as [|n IH]; intros a f k x Hk; [lia|]. cbn [seq map]. destruct k as [|k]; cbn [upd].
  - rewrite Nat.add_0_r, Nat.eqb_refl. do 2 f_equal. apply map_ext_in. intros j Hj. apply in_seq in Hj. destruct (Nat.eqb_spec j a); [lia|reflexivity].
  - rewrite IH by lia. cbn [obind]. destruct (Nat.eqb_spec a (a + S k)); [lia|]. do 2 f_equal. apply map_ext. intros j. replace (S a + k) with (a + S k) by lia. reflexivity.
Qed.
Lemma nth_map_seq {A} (f : nat -> A) n r d : r < n -> nth r (map f (seq 0 n)) d = f r.
Proof. intros H. apply nth_error_nth. rewrite nth_error_map. rewrite (nth_error_nth' _ 0) by (rewrite seq_length; exact H). cbn [option_map]. rewrite seq_nth by exact H. reflexivity. Qed.
Lemma nth_error_map_seq {A} (f : nat -> A) n r : r < n -> nth_error (map f (seq 0 n)) r = Some (f r).
Proof. intros H. rewrite nth_error_map. rewrite (nth_error_nth' _ 0) by (rewrite seq_length; exact H). cbn [option_map]. rewrite seq_nth by exact H. reflexivity. Qed.
Lemma replace_fun {A} (f : nat -> A) n : forall (a r : nat) x, r < n -> firstn r (map f (seq a n)) ++ x :: skipn (S r) (map f (seq a n)) = map (fun j => if j =? a + r then x else f j) (seq a n).
Proof.
  induction n as [|n IH]; intros a r x Hr; [lia|]. cbn [seq map]. destruct r as [|r].
  - cbn [firstn skipn app]. rewrite Nat.add_0_r, Nat.eqb_refl. f_equal. apply map_ext_in. intros j Hj. apply in_seq in Hj. destruct (Nat.eqb_spec j a); [lia|reflexivity].
  - cbn [firstn app]. change (skipn (S (S r)) (f a :: map f (seq (S a) n))) with (skipn (S r) (map f (seq (S a) n))). rewrite IH by lia. destruct (Nat.eqb_spec a (a + S r)); [lia|]. f_equal. apply map_ext. intros j. replace (S a + r) with (a + S r) by lia. reflexivity.
Qed.
(** the table as a function *)
Definition tabf (nl nv : nat) (T : nat -> nat -> Z) : list (list Z) := map (fun r => map (T r) (seq 0 (S nv))) (seq 0 nl).
Definition tset (T : nat -> nat -> Z) (r c : nat) (x : Z) : nat -> nat -> Z := fun r' c' => if r' =? r then (if c' =? c then x else T r' c') else T r' c'.
Lemma put_fun nl nv T r c x : r < nl -> c <= nv -> put (tabf nl nv T) r c x = Some (tabf nl nv (tset T r c x)).
Proof.
  intros Hr Hc. unfold put, tabf. rewrite nth_error_map_seq by exact Hr. cbn [obind]. rewrite upd_fun by lia. cbn [obind]. rewrite map_length, seq_length. destruct (Nat.ltb_spec r nl); [|lia]. rewrite replace_fun by exact Hr. f_equal. apply map_ext. intros r'. cbn [Nat.add]. unfold tset. destruct (r' =? r) eqn:E; [|reflexivity]. apply Nat.eqb_eq in E. subst r'. reflexivity.
Qed.
(** the monomial of a column *)
Definition mof (nv j : nat) : mono := if j <? nv then xpow nv j 1 else mone nv.
Lemma mof_len nv j : length (mof nv j) = nv.
Proof. unfold mof. destruct (j <? nv); [apply var_len|apply mone_length]. Qed.
Lemma mof_inj nv i j : i <= nv -> j <= nv -> mof nv i = mof nv j -> i = j.
Proof.
  intros Hi Hj E. unfold mof in E. destruct (Nat.ltb_spec i nv), (Nat.ltb_spec j nv).
  - apply (var_inj nv); assumption.
  - destruct (var_ne_one nv i H E).
  - symmetry in E. destruct (var_ne_one nv j H0 E).
  - lia.
Qed.
Lemma mof_deg nv m : length m = nv -> (mdeg m <= 1)%N -> exists j, j <= nv /\ m = mof nv j.
Proof.
  intros Lm Hd. destruct (deg_le_one nv m Lm Hd) as [->|(k & Hk & ->)].
  - exists nv. unfold mof. rewrite Nat.ltb_irrefl. split; [lia|reflexivity].
  - exists k. unfold mof. destruct (Nat.ltb_spec k nv); [split; [lia|reflexivity]|lia].
Qed.
Lemma nth_ex (m : mono) k nv : length m = nv -> k < nv -> nth_error m k = Some (ex m k).
Proof. intros Lm Hk. apply (nth_error_nth' m 0%N). lia. Qed.
Lemma lin_term_ok nl nv cnt T c0 j : cnt < nl -> j <= nv -> lin_term nv cnt (c0, mof nv j) (tabf nl nv T) = Some (tabf nl nv (tset T cnt j c0)).
Proof.
  intros Hc Hj. unfold lin_term. cbn [fst snd].
  assert (K : forall i, i <= nv -> ofold (fun k st => let? e := nth_error (mof nv j) k in if (e =? 1)%N then let? tab' := put (fst st) cnt k c0 in Some (tab', true) else Some st) (seq 0 i) (tabf nl nv T, false) = Some (if j <? i then (tabf nl nv (tset T cnt j c0), true) else (tabf nl nv T, false))).
  { induction i as [|i IH]; intros Hi; [reflexivity|]. rewrite seq_S, ofold_app, IH by lia. cbn [obind ofold Nat.add]. rewrite (nth_ex _ i nv (mof_len nv j)) by lia. cbn [obind]. unfold mof at 1. destruct (Nat.ltb_spec j nv) as [L|L].
    - rewrite ex_var. destruct (Nat.ltb_spec i nv); [|lia]. rewrite andb_true_r. destruct (Nat.eqb_spec i j) as [->|N].
      + cbn [N.eqb Pos.eqb]. destruct (Nat.ltb_spec j j); [lia|]. cbn [fst]. rewrite put_fun by lia. cbn [obind]. destruct (Nat.ltb_spec j (S j)); [reflexivity|lia].
      + cbn [N.eqb obind]. destruct (Nat.ltb_spec j i), (Nat.ltb_spec j (S i)); try lia; reflexivity.
    - rewrite ex_mone. cbn [N.eqb obind]. destruct (Nat.ltb_spec j i), (Nat.ltb_spec j (S i)); try lia; reflexivity. }
  rewrite K by lia. cbn [obind]. destruct (Nat.ltb_spec j nv) as [L|L]; cbn [fst snd]; [reflexivity|]. replace j with nv by lia. apply put_fun; lia.
Qed.
Lemma lin_terms_ok nl nv cnt (g : bpoly) : forall T, cnt < nl -> NoDup (map snd g) -> (forall t, In t g -> length (snd t) = nv /\ (mdeg (snd t) <= 1)%N) ->
  exists T', ofold (lin_term nv cnt) g (tabf nl nv T) = Some (tabf nl nv T') /\ (forall r c, r <> cnt -> T' r c = T r c) /\
    forall c, c <= nv -> T' cnt c = match lookup g (mof nv c) with Some v => v | None => T cnt c end.
Proof.
  induction g as [|t g IH]; intros T Hc ND Ht; [exists T; split; [reflexivity|split; [reflexivity|reflexivity]]|]. cbn [map] in ND. inversion ND as [|? ? N1 N2]; subst. destruct (Ht t (or_introl eq_refl)) as [L1 L2]. destruct (mof_deg nv _ L1 L2) as (j & Hj & Ej). destruct t as [c0 m0]. cbn [snd] in Ej, N1. subst m0. cbn [ofold]. rewrite lin_term_ok by assumption. cbn [obind].
  destruct (IH (tset T cnt j c0) Hc N2) as (T' & E & A & B); [intros s Hs; apply Ht; right; exact Hs|]. exists T'. split; [exact E|]. split; [intros r c Hr; rewrite A by exact Hr; unfold tset; destruct (Nat.eqb_spec r cnt); [contradiction|reflexivity]|].
  intros c Hcc. rewrite B by exact Hcc. cbn [lookup fst snd]. unfold tset. rewrite Nat.eqb_refl. destruct (mono_dec (mof nv j) (mof nv c)) as [E2|E2].
  - rewrite lookup_none by (rewrite <- E2; exact N1). apply mof_inj in E2; [|exact Hj|exact Hcc]. subst c. rewrite Nat.eqb_refl. reflexivity.
  - destruct (Nat.eqb_spec c j) as [->|]; [contradiction|]. reflexivity.
Qed.
Lemma lin_copy_ok nl nv cnt (g : bpoly) T : cnt < nl -> length g = nv + 1 ->
  exists T', lin_copy (tabf nl nv T) cnt g = Some (tabf nl nv T') /\ (forall r c, r <> cnt -> T' r c = T r c) /\ forall c, c <= nv -> T' cnt c = fst (nth c g (0%Z, [])).
Proof.
  intros Hc Lg. unfold lin_copy. assert (K : forall i, i <= nv + 1 -> exists T', ofold (fun j tab => let? t := nth_error g j in put tab cnt j (fst t)) (seq 0 i) (tabf nl nv T) = Some (tabf nl nv T') /\ (forall r c, r <> cnt -> T' r c = T r c) /\ forall c, c < i -> T' cnt c = fst (nth c g (0%Z, []))).
  { induction i as [|i IH]; intros Hi; [exists T; split; [reflexivity|split; [reflexivity|intros; lia]]|]. destruct (IH ltac:(lia)) as (T' & E & A & B). rewrite seq_S, ofold_app, E. cbn [obind ofold Nat.add]. rewrite (nth_error_nth' g (0%Z, [])) by lia. cbn [obind]. rewrite put_fun by lia. cbn [obind]. exists (tset T' cnt i (fst (nth i g (0%Z, [])))). split; [reflexivity|]. unfold tset. split.
    - intros r c Hr. destruct (Nat.eqb_spec r cnt); [contradiction|]. apply A. exact Hr.
    - intros c Hcc. rewrite Nat.eqb_refl. destruct (Nat.eqb_spec c i) as [->|]; [reflexivity|]. apply B. lia. }
  rewrite Lg. destruct (K (nv + 1) (Nat.le_refl _)) as (T' & E & A & B). exists T'. split; [exact E|]. split; [exact A|]. intros c Hcc. apply B. lia.
Qed.
Lemma repeat_map {A} (y : A) n : forall a, repeat y n = map (fun _ => y) (seq a n).
Proof. induction n as [|n IH]; intros a; [reflexivity|]. cbn [repeat seq map]. rewrite <- IH. reflexivity. Qed.

Section Table.
Variables (nv : nat) (p : Z) (G : list bpoly).
Hypothesis NV : 1 <= nv.
Hypothesis P2 : (2 <= p)%Z.
Hypothesis HG : reduced_gb nv p G.
Notation lms := (leads G).
Notation lin := (lead_var nv lms).
(** the scan of the leading monomials *)
Fixpoint F (i k : nat) : nat := match i with O => 0 | S i' => if mono_dec (nth i' lms []) (xpow nv k 1) then i else F i' k end.
Fixpoint cnt (i : nat) : nat := match i with O => 0 | S i' => if (mdeg (nth i' lms []) =? 1)%N then S (cnt i') else cnt i' end.
Lemma F_spec i k d : F i k = S d -> d < i /\ nth d lms [] = xpow nv k 1.
Proof. induction i as [|i IH]; cbn [F]; [discriminate|]. destruct (mono_dec (nth i lms []) (xpow nv k 1)) as [E|N]; intros H; [injection H as <-; split; [lia|exact E]|]. destruct (IH H). split; [lia|assumption]. Qed.
Lemma F_zero i k : F i k = 0 -> forall d, d < i -> nth d lms [] <> xpow nv k 1.
Proof. induction i as [|i IH]; cbn [F]; intros H d Hd; [lia|]. destruct (mono_dec (nth i lms []) (xpow nv k 1)) as [E|N]; [discriminate|]. destruct (Nat.eq_dec d i) as [->|]; [exact N|]. apply IH; [exact H|lia]. Qed.
Lemma lms_len_at d : d < length lms -> length (nth d lms []) = nv.
Proof. intros H. apply (leads_len nv p G P2 HG). apply nth_In. exact H. Qed.
Lemma fold_deg (l : list N) : fold_left N.add l 0%N = mdeg l.
Proof. unfold mdeg. apply fold_symmetric; [intros; lia|intros; lia]. Qed.
Lemma omap_id (m : mono) : length m = nv -> omap (fun j => nth_error m j) (seq 0 nv) = Some m.
Proof.
  intros Lm. rewrite (omap_all _ (fun j => ex m j)).
  - f_equal. apply (nth_ext _ _ 0%N 0%N); [rewrite map_length, seq_length; congruence|]. intros i Hi. rewrite map_length, seq_length in Hi. rewrite nth_map_seq by exact Hi. reflexivity.
  - intros j Hj. apply in_seq in Hj. apply (nth_ex m j nv Lm). lia.
Qed.
Lemma scan_ok : lin_scan nv lms (repeat O nv) = Some (cnt (length lms), map (F (length lms)) (seq 0 nv)).
Proof.
  unfold lin_scan. assert (E0 : repeat O nv = map (F 0) (seq 0 nv)). { rewrite (repeat_map O nv 0). reflexivity. } rewrite E0.
  enough (K : forall i, i <= length lms -> ofold (fun i st =>
    let? lm := nth_error lms i in let? es := omap (fun j => nth_error lm j) (seq 0 nv) in let deg := fold_left N.add es 0%N in
    if (deg =? 1)%N then
      let? lv := ofold (fun k lv => let? e := nth_error lm k in if (e =? 1)%N then upd_nat lv k (S i) else Some lv) (seq 0 nv) (snd st) in
      Some (S (fst st), lv)
    else Some st) (seq 0 i) (O, map (F 0) (seq 0 nv)) = Some (cnt i, map (F i) (seq 0 nv))) by (apply K; lia).
  induction i as [|i IH]; intros Hi; [reflexivity|]. rewrite seq_S, ofold_app, IH by lia. cbn [obind ofold Nat.add]. rewrite (nth_error_nth' lms []) by lia. cbn [obind]. pose proof (lms_len_at i ltac:(lia)) as Lm. rewrite (omap_id _ Lm). cbn [obind]. rewrite fold_deg. cbn [cnt]. destruct (N.eqb_spec (mdeg (nth i lms [])) 1) as [Ed|Nd].
  - destruct (deg_le_one nv _ Lm ltac:(lia)) as [C|(k0 & Hk0 & Ek)]; [rewrite C, mdeg_mone in Ed; discriminate|]. cbn [fst snd].
    assert (K : forall j, j <= nv -> ofold (fun k lv => let? e := nth_error (nth i lms []) k in if (e =? 1)%N then upd_nat lv k (S i) else Some lv) (seq 0 j) (map (F i) (seq 0 nv)) = Some (map (fun k => if (k =? k0) && (k0 <? j) then S i else F i k) (seq 0 nv))).
    { induction j as [|j IHj]; intros Hj; [cbn [seq ofold]; f_equal; apply map_ext; intros k; rewrite andb_false_r; reflexivity|]. rewrite seq_S, ofold_app, IHj by lia. cbn [obind ofold Nat.add]. rewrite (nth_ex _ j nv Lm) by lia. cbn [obind]. rewrite Ek, ex_var. destruct (Nat.ltb_spec j nv); [|lia]. rewrite andb_true_r. destruct (Nat.eqb_spec j k0) as [->|N].
      - cbn [N.eqb Pos.eqb]. rewrite upd_nat_fun by exact Hk0. cbn [obind]. f_equal. apply map_ext. intros k. cbn [Nat.add]. destruct (Nat.eqb_spec k k0); [|reflexivity]. destruct (Nat.ltb_spec k0 (S k0)); [reflexivity|lia].
      - cbn [N.eqb obind]. f_equal. apply map_ext. intros k. destruct (k =? k0); [|reflexivity]. destruct (Nat.ltb_spec k0 j), (Nat.ltb_spec k0 (S j)); try lia; reflexivity. }
    rewrite K by lia. cbn [obind]. do 2 f_equal. apply map_ext_in. intros k Hk. apply in_seq in Hk. cbn [F]. rewrite Ek. destruct (Nat.ltb_spec k0 nv); [|lia]. rewrite andb_true_r. destruct (Nat.eqb_spec k k0) as [->|N].
    + destruct (mono_dec (xpow nv k0 1) (xpow nv k0 1)); [reflexivity|contradiction].
    + destruct (mono_dec (xpow nv k0 1) (xpow nv k 1)) as [C|_]; [|reflexivity]. apply var_inj in C; [congruence|exact Hk0].
  - cbn [obind]. do 2 f_equal. apply map_ext_in. intros k Hk. apply in_seq in Hk. cbn [F]. destruct (mono_dec (nth i lms []) (xpow nv k 1)) as [C|_]; [|reflexivity]. rewrite C, mdeg_var in Nd by lia. contradiction.
Qed.
Lemma F_lin k : k < nv -> (F (length lms) k =? 0) = negb (lin k).
Proof.
  intros Hk. destruct (lin k) eqn:E; cbn [negb].
  - apply lead_var_iff in E. destruct (in_nth_m _ _ E) as (d & Hd & Ed). apply Nat.eqb_neq. intros C. exact (F_zero _ _ C d Hd Ed).
  - apply Nat.eqb_eq. destruct (F (length lms) k) as [|d] eqn:C; [reflexivity|]. apply F_spec in C as [Hd Ed]. assert (K : lin k = true) by (apply lead_var_iff; rewrite <- Ed; apply nth_In; exact Hd). congruence.
Qed.
Lemma count_flip (f f' : nat -> bool) k0 : forall n a, a <= k0 < a + n -> f k0 = false -> f' k0 = true -> (forall k, k <> k0 -> f' k = f k) -> length (filter f' (seq a n)) = S (length (filter f (seq a n))).
Proof.
  intros n. induction n as [|n IH]; intros a Ha E E' H; [lia|]. cbn [seq filter]. destruct (Nat.eq_dec a k0) as [->|N].
  - rewrite E, E'. cbn [length]. do 2 f_equal. apply filter_ext_in. intros k Hk. apply in_seq in Hk. apply H. lia.
  - rewrite (H a N). destruct (f a); cbn [length]; rewrite IH by (auto; lia); reflexivity.
Qed.
Lemma filter_nil {A} (f : A -> bool) l : (forall y, f y = false) -> filter f l = [].
Proof. intros H. induction l as [|y l IH]; [reflexivity|]. cbn [filter]. rewrite H. exact IH. Qed.
Lemma cnt_ok i : i <= length lms -> cnt i = length (filter (fun k => negb (F i k =? 0)) (seq 0 nv)).
Proof.
  induction i as [|i IH]; intros Hi; [cbn [F cnt]; rewrite filter_nil by reflexivity; reflexivity|]. cbn [cnt]. destruct (N.eqb_spec (mdeg (nth i lms [])) 1) as [Ed|Nd].
  - destruct (deg_le_one nv _ (lms_len_at i Hi) ltac:(lia)) as [C|(k0 & Hk0 & Ek)]; [rewrite C, mdeg_mone in Ed; discriminate|]. rewrite IH by lia. symmetry. apply (count_flip _ _ k0).
    + lia.
    + apply negb_false_iff, Nat.eqb_eq. destruct (F i k0) as [|d] eqn:C; [reflexivity|]. apply F_spec in C as [Hd C]. exfalso. pose proof (sorted_nth lms [] d i (leads_sorted nv p G HG) Hd Hi) as K. rewrite C, Ek in K. exact (drl_irrefl _ K).
    + cbn [F]. rewrite Ek. destruct (mono_dec (xpow nv k0 1) (xpow nv k0 1)); [reflexivity|contradiction].
    + intros k Hk. cbn [F]. rewrite Ek. destruct (mono_dec (xpow nv k0 1) (xpow nv k 1)) as [C|_]; [|reflexivity]. apply var_inj in C; [congruence|exact Hk0].
  - rewrite IH by lia. f_equal. apply filter_ext_in. intros k Hk. apply in_seq in Hk. cbn [F]. destruct (mono_dec (nth i lms []) (xpow nv k 1)) as [C|_]; [|reflexivity]. rewrite C, mdeg_var in Nd by lia. contradiction.
Qed.
Lemma nlins_ok : cnt (length lms) = length (filter lin (seq 0 nv)).
Proof. rewrite cnt_ok by lia. f_equal. apply filter_ext_in. intros k Hk. apply in_seq in Hk. rewrite F_lin by lia. apply negb_involutive. Qed.
(** the linear form with leading variable k *)
Definition gof (k : nat) : bpoly := nth (F (length lms) k - 1) G [].
Lemma gof_ok k : k < nv -> lin k = true -> nth_error G (F (length lms) k - 1) = Some (gof k) /\ In (gof k) G /\ lead (gof k) = xpow nv k 1.
Proof.
  intros Hk E. pose proof (F_lin k Hk) as K. rewrite E in K. cbn [negb] in K. apply Nat.eqb_neq in K. destruct (F (length lms) k) as [|d] eqn:C; [contradiction|]. apply F_spec in C as C'. destruct C' as [Hd Ed]. unfold gof. rewrite C. cbn [Nat.sub]. rewrite Nat.sub_0_r. assert (Hd' : d < length G) by (unfold leads in Hd; rewrite map_length in Hd; exact Hd). split; [apply (nth_error_nth' G []); exact Hd'|]. split; [apply nth_In; exact Hd'|]. rewrite <- Ed. symmetry. apply (nth_error_nth (map lead G) d []). rewrite nth_error_map. rewrite (nth_error_nth' (G : list (list (Z * mono))) [] Hd'). reflexivity.
Qed.
Lemma gof_terms k t : k < nv -> lin k = true -> In t (gof k) -> length (snd t) = nv /\ (mdeg (snd t) <= 1)%N /\ (0 < fst t < p)%Z /\ (snd t = xpow nv k 1 \/ drl_lt (snd t) (xpow nv k 1)).
Proof.
  intros Hk E Ht. destruct (gof_ok k Hk E) as (_ & Hin & El). destruct (el_shape nv p G HG (gof k) Hin) as (tail & Eg & _ & Hs & Ll). rewrite Eg in Ht. rewrite El in Hs, Ht. destruct Ht as [<-|Ht]; cbn [fst snd].
  - rewrite var_len, mdeg_var by exact Hk. split; [reflexivity|]. split; [lia|]. split; [lia|left; reflexivity].
  - destruct (Hs t Ht) as (A & B & C). split; [exact B|]. split; [|split; [exact A|right; exact C]]. pose proof (mdeg_var nv k Hk). destruct C as [C|[C _]]; lia.
Qed.
Definition all_low : list mono := mone nv :: map (fun k => xpow nv k 1) (rev (seq 0 nv)).
Lemma all_low_sorted : StronglySorted drl_lt all_low.
Proof.
  unfold all_low. constructor; [apply rev_sorted_var; [apply seq_sorted|intros k Hk; apply in_seq in Hk; lia]|]. apply Forall_forall. intros z Hz. apply in_map_iff in Hz as (k & <- & Hk). apply in_rev in Hk. apply in_seq in Hk. apply drl_one; [apply var_len|apply var_ne_one; lia].
Qed.
Lemma dense_shape k : k < nv -> lin k = true -> length (gof k) = nv + 1 -> (forall c, c <= nv -> snd (nth c (gof k) (0%Z, [])) = mof nv c) /\ forall j, j < nv -> lin j = true -> j = k /\ k = 0.
Proof.
  intros Hk E Lg. destruct (gof_ok k Hk E) as (_ & Hin & El). destruct (el_shape nv p G HG (gof k) Hin) as (tail & Eg & Hi & Hs & Ll).
  assert (EQ : map snd (rev (gof k)) = all_low).
  { apply sorted_incl_len.
    - rewrite Eg. cbn [rev]. rewrite map_app. apply sorted_app_one; [exact Hi|]. cbn [snd]. intros z Hz. rewrite map_rev in Hz. apply in_rev in Hz. apply in_map_iff in Hz as (t & <- & Ht). apply Hs. exact Ht.
    - exact all_low_sorted.
    - intros m Hm. rewrite map_rev in Hm. apply in_rev in Hm. apply in_map_iff in Hm as (t & <- & Ht). destruct (gof_terms k t Hk E Ht) as (A & B & _). destruct (deg_le_one nv _ A B) as [->|(j & Hj & ->)]; [left; reflexivity|]. right. apply (in_map (fun k => xpow nv k 1)). rewrite <- in_rev. apply in_seq. lia.
    - rewrite map_length, rev_length. unfold all_low. cbn [length]. rewrite map_length, rev_length, seq_length. lia. }
  assert (EQ' : map snd (gof k) = map (mof nv) (seq 0 (nv + 1))).
  { rewrite map_rev in EQ. apply (f_equal (@rev mono)) in EQ. rewrite rev_involutive in EQ. rewrite EQ. unfold all_low. cbn [rev]. rewrite <- map_rev, rev_involutive. rewrite Nat.add_1_r, seq_S, map_app. cbn [map Nat.add]. f_equal.
    - apply map_ext_in. intros j Hj. apply in_seq in Hj. unfold mof. destruct (Nat.ltb_spec j nv); [reflexivity|lia].
    - unfold mof. rewrite Nat.ltb_irrefl. reflexivity. }
  split.
  - intros c Hc. pose proof (f_equal (fun l => nth c l []) EQ') as K. cbv beta in K. rewrite nth_map_seq in K by lia. rewrite <- K. symmetry. apply (nth_error_nth _ _ []). apply (map_nth_error snd c (gof k)). apply (nth_error_nth' (gof k) (0%Z, [])). unfold bpoly in *. lia.
  - assert (K0 : k = 0). { apply (var_inj nv); [exact Hk|]. rewrite <- El. rewrite Eg in EQ'. rewrite Nat.add_1_r in EQ'. cbn [seq map snd] in EQ'. injection EQ' as E1 _. unfold mof in E1. destruct (Nat.ltb_spec 0 nv); [|lia]. exact E1. }
    intros j Hj Ej. split; [|exact K0]. destruct (Nat.eq_dec j k) as [|N]; [assumption|]. exfalso. assert (Hx : In (xpow nv j 1) (map snd (gof k))). { rewrite EQ'. apply in_map_iff. exists j. split; [unfold mof; destruct (Nat.ltb_spec j nv); [reflexivity|lia]|apply in_seq; lia]. }
    rewrite Eg in Hx. cbn [map snd] in Hx. destruct Hx as [C|Hx]; [rewrite El in C; apply var_inj in C; [congruence|exact Hk]|]. apply in_map_iff in Hx as (t & Et & Ht). destruct (tail_std nv p G P2 HG (gof k) tail Hin Eg t Ht) as [_ [_ K]]. apply lead_var_iff in Ej. apply (K _ Ej). rewrite Et. apply mdvd_refl.
Qed.
Notation nl := (length (filter lin (seq 0 nv))).
Lemma rows_ok : exists T, lin_rows nv G (map (F (length lms)) (seq 0 nv)) (repeat (repeat 0%Z (S nv)) nl) = Some (tabf nl nv T) /\
  forall r c, r < nl -> c <= nv -> T r c = cf (gof (nth r (filter lin (seq 0 nv)) 0)) (mof nv c).
Proof.
  assert (E0 : repeat (repeat 0%Z (S nv)) nl = tabf nl nv (fun _ _ => 0%Z)). { unfold tabf. rewrite (repeat_map _ nl 0), (repeat_map _ (S nv) 0). reflexivity. }
  rewrite E0. unfold lin_rows.
  assert (K : forall i, i <= nv -> exists T c0, ofold (fun i st =>
    let? l := nth_error (map (F (length lms)) (seq 0 nv)) i in
    if (l =? 0)%nat then Some st else
    let? g := nth_error G (l - 1) in
    if (length g =? nv + 1)%nat then let? tab' := lin_copy (fst st) (snd st) g in Some (tab', snd st)
    else let? tab' := ofold (lin_term nv (snd st)) g (fst st) in Some (tab', S (snd st))) (seq 0 i) (tabf nl nv (fun _ _ => 0%Z), O) = Some (tabf nl nv T, c0) /\
    (forall r c, r < length (filter lin (seq 0 i)) -> c <= nv -> T r c = cf (gof (nth r (filter lin (seq 0 nv)) 0)) (mof nv c)) /\
    (forall r c, length (filter lin (seq 0 i)) <= r -> T r c = 0%Z) /\
    (c0 = length (filter lin (seq 0 i)) \/ forall k, i <= k < nv -> lin k = false)).
  { induction i as [|i IH]; intros Hi; [exists (fun _ _ => 0%Z), 0; split; [reflexivity|]; split; [cbn [seq filter length]; intros; lia|]; split; [reflexivity|left; reflexivity]|]. destruct (IH ltac:(lia)) as (T & c0 & E & A & B & C). rewrite filter_seq_S. rewrite seq_S, ofold_app, E. cbn [obind ofold Nat.add]. rewrite nth_error_map_seq by lia. cbn [obind]. rewrite F_lin by lia. destruct (lin i) eqn:El; cbn [negb].
    - destruct C as [->|C]; [|rewrite (C i ltac:(lia)) in El; discriminate]. destruct (gof_ok i ltac:(lia) El) as (Eg & Hin & _). rewrite Eg. cbn [obind]. pose proof (filter_seq_lt lin nv i ltac:(lia) El) as W. pose proof (filter_seq_nth lin nv i ltac:(lia) El) as Q. apply (nth_error_nth _ _ 0) in Q. rewrite app_length. cbn [length fst snd]. destruct (Nat.eqb_spec (length (gof i)) (nv + 1)) as [Ld|Nd].
      + destruct (lin_copy_ok nl nv (length (filter lin (seq 0 i))) (gof i) T W Ld) as (T' & E' & A' & B'). rewrite E'. cbn [obind]. exists T', (length (filter lin (seq 0 i))). split; [reflexivity|]. destruct (dense_shape i ltac:(lia) El Ld) as [Sh On]. split; [|split].
        * intros r c Hr Hc. destruct (Nat.eq_dec r (length (filter lin (seq 0 i)))) as [->|N]; [|rewrite A' by exact N; apply A; [lia|exact Hc]]. rewrite B' by exact Hc. rewrite Q, <- (Sh c Hc). symmetry. apply cf_at; [apply (el_nodup nv p G HG); exact Hin|]. apply nth_In. unfold bpoly in *. lia.
        * intros r c Hr. rewrite A' by lia. apply B. lia.
        * right. intros k Hk. destruct (lin k) eqn:C; [|reflexivity]. destruct (On k ltac:(lia) C). lia.
      + destruct (lin_terms_ok nl nv (length (filter lin (seq 0 i))) (gof i) T W (el_nodup nv p G HG _ Hin)) as (T' & E' & A' & B'); [intros t Ht; destruct (gof_terms i t ltac:(lia) El Ht) as (X1 & X2 & _); split; assumption|]. rewrite E'. cbn [obind]. exists T', (S (length (filter lin (seq 0 i)))). split; [reflexivity|]. split; [|split].
        * intros r c Hr Hc. destruct (Nat.eq_dec r (length (filter lin (seq 0 i)))) as [->|N]; [|rewrite A' by exact N; apply A; [lia|exact Hc]]. rewrite B' by exact Hc. rewrite Q. rewrite (lookup_cf _ _ (el_nodup nv p G HG _ Hin)). destruct (lookup (gof i) (mof nv c)); [reflexivity|]. apply B. lia.
        * intros r c Hr. rewrite A' by lia. apply B. lia.
        * left. lia.
    - rewrite app_nil_r. exists T, c0. split; [reflexivity|]. split; [exact A|]. split; [exact B|]. destruct C as [C|C]; [left; exact C|right; intros k Hk; apply C; lia]. }
  destruct (K nv (Nat.le_refl _)) as (T & c0 & E & A & _ & _). rewrite E. cbn [obind fst]. exists T. split; [reflexivity|exact A].
Qed.
Lemma row_linear k eq : k < nv -> lin k = true -> eq = map (fun c => cf (gof k) (mof nv c)) (seq 0 (S nv)) -> linear_row nv p (pfs G) k eq.
Proof.
  intros Hk E ->. destruct (gof_ok k Hk E) as (_ & Hin & El). pose proof (el_nodup nv p G HG _ Hin) as ND. destruct (el_lead nv p G P2 HG _ Hin) as [C1 _]. rewrite El in C1.
  assert (Nt : forall c, c <= nv -> nth c (map (fun c => cf (gof k) (mof nv c)) (seq 0 (S nv))) 0%Z = cf (gof k) (mof nv c)) by (intros c Hc; exact (nth_map_seq (fun c => cf (gof k) (mof nv c)) (S nv) c 0%Z ltac:(lia))).
  split; [rewrite map_length, seq_length; reflexivity|]. split; [|split; [|split]].
  - intros c Hc. apply in_map_iff in Hc as (j & <- & Hj). rewrite (lookup_cf _ _ ND). destruct (lookup (gof k) (mof nv j)) as [v|] eqn:Lk; [|lia]. apply lookup_in in Lk. destruct (gof_terms k _ Hk E Lk) as (_ & _ & R & _). cbn [fst] in R. lia.
  - intros j Hj. rewrite Nt by lia. unfold mof. destruct (Nat.ltb_spec j nv); [|lia]. apply cf_notin. intros C. apply in_map_iff in C as (t & Et & Ht). destruct (gof_terms k t Hk E Ht) as (_ & _ & _ & R). rewrite Et in R. destruct R as [R|R]; [apply var_inj in R; [lia|assumption]|]. apply (drl_irrefl (xpow nv j 1)). apply (drl_trans _ (xpow nv k 1)); [exact R|]. apply var_lt; lia.
  - rewrite Nt by lia. unfold mof. destruct (Nat.ltb_spec k nv); [|lia]. exact C1.
  - eapply ls_eq; [apply (ideal_gen nv p (pfs G) (cf (gof k))); exists (gof k); split; [exact Hin|reflexivity]|]. intros m Lm. assert (EE : linear_form nv (map (fun c => cf (gof k) (mof nv c)) (seq 0 (S nv))) m = cf (gof k) m); [|rewrite EE; reflexivity].
    unfold linear_form. rewrite (Nt nv) by lia. rewrite (sumn_ext nv _ (fun j => (cf (gof k) (mof nv j) * cf [(1%Z, mof nv j)] m)%Z)) by (intros j Hj; rewrite Nt by lia; unfold mof; destruct (Nat.ltb_spec j nv); [reflexivity|lia]).
    assert (Em : cf [(1%Z, mone nv)] m = cf [(1%Z, mof nv nv)] m) by (unfold mof; rewrite Nat.ltb_irrefl; reflexivity). rewrite Em. change (sumn (S nv) (fun j => (cf (gof k) (mof nv j) * cf [(1, mof nv j)] m)%Z) = cf (gof k) m).
    destruct (N.leb_spec (mdeg m) 1) as [Hd|Hd].
    + destruct (mof_deg nv m Lm Hd) as (j & Hj & ->). rewrite (sumn_ext (S nv) _ (fun i => if i =? j then cf (gof k) (mof nv i) else 0%Z)).
      * apply (sumn_delta (S nv) j (fun i => cf (gof k) (mof nv i))). lia.
      * intros i Hi. cbn [cf fst snd]. destruct (Nat.eqb_spec i j) as [->|N]; [destruct (mono_dec (mof nv j) (mof nv j)); [ring|contradiction]|]. destruct (mono_dec (mof nv i) (mof nv j)) as [C|_]; [|ring]. apply mof_inj in C; lia.
    + rewrite (sumn_zero_ext (S nv)); [symmetry; apply cf_notin; intros C; apply in_map_iff in C as (t & Et & Ht); destruct (gof_terms k t Hk E Ht) as (_ & R & _); rewrite Et in R; lia|]. intros i Hi. cbn [cf fst snd]. destruct (mono_dec (mof nv i) m) as [C|_]; [|ring]. exfalso. rewrite <- C in Hd. unfold mof in Hd. destruct (Nat.ltb_spec i nv); [rewrite mdeg_var in Hd by assumption; lia|rewrite mdeg_mone in Hd; lia].
Qed.
Lemma table_ok : exists lv eqs, check_and_set_linear_poly nv lms G = Some (nl, lv, eqs) /\ length lv = nv /\
  (forall k, k < nv -> (nth k lv 0 =? 0) = negb (lin k)) /\ Forall2 (linear_row nv p (pfs G)) (filter lin (seq 0 nv)) eqs.
Proof.
  unfold check_and_set_linear_poly. rewrite scan_ok. cbn [obind fst snd]. rewrite nlins_ok. destruct rows_ok as (T & E & A). rewrite E. cbn [obind]. eexists _, _. split; [reflexivity|]. split; [rewrite map_length, seq_length; reflexivity|]. split; [intros k Hk; rewrite nth_map_seq by exact Hk; apply F_lin; exact Hk|].
  assert (F2 : forall (P : nat -> list Z -> Prop) l l', length l = length l' -> (forall r, r < length l -> P (nth r l 0) (nth r l' [])) -> Forall2 P l l').
  { intros P l. induction l as [|y l IH]; intros l' L H; destruct l' as [|y' l']; try discriminate; [constructor|]. constructor; [apply (H 0); cbn; lia|]. apply IH; [injection L; auto|]. intros r Hr. apply (H (S r)). cbn [length]. lia. }
  apply F2; [unfold tabf; rewrite map_length, seq_length; reflexivity|]. intros r Hr. assert (Hin : In (nth r (filter lin (seq 0 nv)) 0) (filter lin (seq 0 nv))) by (apply nth_In; exact Hr). apply filter_In in Hin as [H1 H2]. apply in_seq in H1. apply row_linear; [lia|exact H2|]. unfold tabf. rewrite nth_map_seq by exact Hr. apply map_ext_in. intros c Hc. apply in_seq in Hc. apply A; [exact Hr|lia].
Qed.
End Table.
