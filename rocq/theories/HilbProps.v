(** C24, C25, C26: the staircase enumeration and the zero-dimensionality test. *)
From Coq Require Import ZArith NArith Arith List Bool Lia Sorted.
From Verif Require Import ModInvModel MonoSpec MonoSpecProofs HilbSpec HilbModel HilbProofs HilbLoopProofs.
Import ListNotations.
Open Scope N_scope.

Definition lms_ok (nv : nat) (lms : list mono) : Prop :=
  Forall (fun l => length l = nv /\ forall i, ex l i <= i32_max) lms.

Lemma lms_ok_len nv lms : lms_ok nv lms -> Forall (fun l => length l = nv) lms.
Proof. intros H. eapply Forall_impl; [|exact H]. intros l [Hl _]. exact Hl. Qed.

Lemma mb_loop_bad nv lms D k : forall f deg basis new ind, mb_loop f nv lms D deg basis new ind = Bad ->
  mb_loop (f + k) nv lms D deg basis new ind = Bad.
Proof.
  induction f as [|f IH]; intros deg basis new ind H; [discriminate|]. cbn [mb_loop Nat.add] in *.
  destruct ((0 <? length new)%nat && _); [|discriminate].
  destruct (update_indices _ _ _ _ _); auto. destruct (sum l); auto. destruct (generate_new_elts_basis _ _ _ _ _ _); auto.
Qed.

Lemma upto_bad nv lms D f k : monomial_basis_upto f nv lms D = Bad -> monomial_basis_upto (f + k) nv lms D = Bad.
Proof.
  unfold monomial_basis_upto. destruct (is_divisible_lexp _ _ _) as [[]|]; auto.
  destruct (sum _); auto. destruct (generate_new_elts_basis _ _ _ _ _ _); auto.
  destruct (mb_loop f _ _ _ _ _ _ _) eqn:E; try discriminate. intros _. rewrite mb_loop_bad; auto.
Qed.

(** ** C24: with finitely many standard monomials, listed by [L] (of any order), the routine terminates, and
    returns exactly them, in increasing degree reverse lexicographic order (in particular without repetition and
    in nondecreasing degree); it returns NULL exactly when there are none.  The last hypothesis keeps the 32-bit
    index sums of the routine in range. *)
Theorem C24_staircase nv lms L : (1 <= nv)%nat -> lms_ok nv lms -> lists (standard nv lms) L ->
  N.of_nat (nv * length L) <= i32_max ->
  forall fuel, (length L < fuel)%nat ->
  exists r, monomial_basis fuel nv lms = Ok r /\
    match r with
    | None => forall m, ~ standard nv lms m
    | Some b => (forall m, In m b <-> standard nv lms m) /\ StronglySorted drl_lt b /\ length b = length L
    end.
Proof.
  intros Hnv Hl [HN HL] Hsz fuel Hf. unfold monomial_basis.
  destruct (monomial_basis_upto_ok nv lms (lms_ok_len _ _ Hl) Hnv None L) with (fuel := fuel) as [[_ (b & H1 & H2 & H3)]|[H1 H2]]; auto.
  - intros m [Hm _]. apply HL. auto.
  - intros m [Hm _]. apply (finite_exp nv lms Hl); auto. exists L. intros x Hx. apply HL. auto.
  - exists (Some b). split; auto. assert (Hb : forall m, In m b <-> standard nv lms m).
    { intros m. rewrite H2. unfold good, within. tauto. }
    split; auto. split; auto. apply Nat.le_antisymm; apply NoDup_incl_length; auto.
    + apply drl_sorted_nodup; auto.
    + intros m Hm. apply HL. apply Hb. auto.
    + intros m Hm. apply Hb. apply HL. auto.
  - exists None. auto.
Qed.
Print Assumptions C24_staircase.

(** a strictly increasing list has no repetition *)
Theorem C24_sorted_distinct (b : list mono) : StronglySorted drl_lt b -> NoDup b /\
  StronglySorted (fun x y => mdeg x <= mdeg y) b.
Proof.
  intros H. split; [apply drl_sorted_nodup; auto|].
  induction H as [|a l H1 IH H2]; constructor; auto. eapply Forall_impl; [|exact H2]. intros y [Hy|[Hy _]]; cbn; lia.
Qed.
Print Assumptions C24_sorted_distinct.

(** The variants bounded by a degree (bases of subspaces used for positive-dimensional inputs). *)
Theorem C24_bounded nv lms D L : (1 <= nv)%nat -> lms_ok nv lms -> N.of_nat D < i32_max ->
  lists (fun m => standard nv lms m /\ mdeg m <= N.of_nat D) L -> N.of_nat (nv * length L) <= i32_max ->
  forall fuel, (length L < fuel)%nat ->
  exists r, monomial_basis_colon fuel nv lms D = Ok r /\
    match r with
    | None => forall m, ~ standard nv lms m
    | Some b => (forall m, In m b <-> standard nv lms m /\ mdeg m <= N.of_nat D) /\ StronglySorted drl_lt b
    end.
Proof.
  intros Hnv Hl HD [HN HL] Hsz fuel Hf. unfold monomial_basis_colon.
  destruct (monomial_basis_upto_ok nv lms (lms_ok_len _ _ Hl) Hnv (Some D) L) with (fuel := fuel) as [[_ (b & H1 & H2 & H3)]|[H1 H2]]; auto.
  - intros m Hm. apply HL. auto.
  - intros m [_ Hm] i. unfold within in Hm. pose proof (ex_le_mdeg m i). lia.
  - exists (Some b). auto.
  - exists None. auto.
Qed.
Print Assumptions C24_bounded.

(** The list of all monomials that can occur in a basis with these leading monomials: degree at most that of the
    last leading monomial. *)
Theorem C24_enlarged nv lms l0 L : (1 <= nv)%nat -> lms_ok nv (lms ++ [l0]) -> mdeg l0 < i32_max ->
  lists (fun m => standard nv (lms ++ [l0]) m /\ mdeg m <= mdeg l0) L -> N.of_nat (nv * length L) <= i32_max ->
  forall fuel, (length L < fuel)%nat ->
  exists r, monomial_basis_enlarged fuel nv (lms ++ [l0]) = Ok r /\
    match r with
    | None => forall m, ~ standard nv (lms ++ [l0]) m
    | Some b => (forall m, In m b <-> standard nv (lms ++ [l0]) m /\ mdeg m <= mdeg l0) /\ StronglySorted drl_lt b
    end.
Proof.
  intros Hnv Hl HD HL Hsz fuel Hf. unfold monomial_basis_enlarged.
  rewrite app_length. cbn [length]. replace (length lms + 1 - 1)%nat with (length lms) by lia.
  rewrite nth_error_app2, Nat.sub_diag by lia. cbn [nth_error].
  assert (Hl0 : length l0 = nv).
  { apply lms_ok_len in Hl. rewrite Forall_forall in Hl. apply Hl. apply in_app_iff. right. left. auto. }
  rewrite firstn_all2 by lia. destruct (N.leb_spec (mdeg l0) i32_max); [|lia].
  destruct (C24_bounded nv (lms ++ [l0]) (N.to_nat (mdeg l0)) L) with (fuel := fuel) as (r & Hr & H2); auto; [lia| |].
  - rewrite N2Nat.id. auto.
  - exists r. split; auto. rewrite N2Nat.id in H2. auto.
Qed.
Print Assumptions C24_enlarged.

(** The variant for colon ideals keeps those standard monomials whose product with some power of the last
    variable is divisible by a leading monomial. *)
Theorem C24_colon_no_zero nv lms D L : (1 <= nv)%nat -> lms_ok nv lms -> N.of_nat D < i32_max ->
  lists (fun m => standard nv lms m /\ mdeg m <= N.of_nat D) L -> N.of_nat (nv * length L) <= i32_max ->
  forall fuel, (length L < fuel)%nat ->
  exists r, monomial_basis_colon_no_zero fuel nv lms D = Ok r /\
    match r with
    | None => forall m, ~ standard nv lms m
    | Some b => (forall m, In m b <-> (standard nv lms m /\ mdeg m <= N.of_nat D) /\
                   exists k, ~ standard nv lms (mmul (xpow nv (nv - 1) k) m)) /\ StronglySorted drl_lt b
    end.
Proof.
  intros Hnv Hl HD HL Hsz fuel Hf.
  destruct (C24_bounded nv lms D L Hnv Hl HD HL Hsz fuel Hf) as (r & Hr & H).
  unfold monomial_basis_colon in Hr. unfold monomial_basis_colon_no_zero. rewrite Hr.
  destruct r as [b|]; [|exists None; auto]. destruct H as [Hb Hs].
  assert (Hlen : Forall (fun m => length m = nv) b) by (apply Forall_forall; intros m Hm; apply Hb in Hm; apply Hm).
  assert (Hge : Forall (fun l : mono => (nv - 1 <= length l)%nat) lms).
  { eapply Forall_impl; [|exact Hl]. intros l [E _]. cbn. lia. }
  assert (G : forall b : list mono, Forall (fun m => length m = nv) b -> exists b', colon_cleanup nv lms b = Some b' /\
     (forall m, In m b' <-> In m b /\ exists l, In l lms /\ forall i, (i < nv - 1)%nat -> ex l i <= ex m i) /\
     (StronglySorted drl_lt b -> StronglySorted drl_lt b')).
  { clear -Hge. induction b as [|m b IH]; intros Hb.
    - exists []. split; auto. split; auto. intros m. cbn. tauto.
    - inversion Hb; subst. destruct (IH H2) as (b' & E1 & E2 & E3).
      destruct (is_divisible_lexp_ok (length m - 1) m lms) as (r & R1 & R2); [lia|auto|].
      cbn [colon_cleanup]. unfold is_divisible_lexp_without_last_variable. rewrite R1. cbn [obind]. rewrite E1. cbn [obind].
      exists (if r then m :: b' else b'). split; auto. split.
      + intros x. destruct r.
        * cbn [In]. rewrite E2. split.
          -- intros [->|H]; [split; auto; apply R2; auto|tauto].
          -- intros [[->|H] Hx]; auto.
        * rewrite E2. cbn [In]. split; [tauto|]. intros [[->|H] Hx]; auto. apply R2 in Hx. discriminate.
      + intros Hs. inversion Hs as [|? ? Hs1 Hs2]; subst. destruct r; auto. constructor; auto. rewrite Forall_forall in *. intros y Hy.
        apply E2 in Hy. apply Hs2. tauto. }
  destruct (G b Hlen) as (b' & E1 & E2 & E3). rewrite E1. exists (Some b'). split; auto. split; auto.
  intros m. rewrite E2, Hb. clear G E1 E2 E3. split; intros [Hm Hx]; (split; [exact Hm|]); destruct Hm as [[Hml Hms] Hmd].
  - destruct Hx as (l & Hin & Hle). exists (ex l (nv - 1)). intros [_ Hn]. apply (Hn l Hin). intros i.
    rewrite ex_mmul by (rewrite xpow_length; auto). rewrite ex_xpow by lia.
    assert (Hll : length l = nv). { apply lms_ok_len in Hl. rewrite Forall_forall in Hl. auto. }
    destruct (Nat.eqb_spec i (nv - 1)) as [->|Hi]; [lia|].
    destruct (Nat.lt_ge_cases i nv); [specialize (Hle i ltac:(lia)); lia|]. rewrite (ex_overflow l) by lia. lia.
  - destruct Hx as [k Hk].
    destruct (existsb (fun l => forallb (fun i => ex l i <=? ex m i) (seq 0 (nv - 1))) lms) eqn:E.
    + apply existsb_exists in E. destruct E as (l & Hin & Hle). exists l. split; auto. intros i Hi.
      rewrite forallb_forall in Hle. apply N.leb_le. apply Hle. apply in_seq. lia.
    + exfalso. apply Hk. split; [rewrite mmul_length; rewrite xpow_length; auto|]. intros l Hin Hd.
      assert (existsb (fun l => forallb (fun i => ex l i <=? ex m i) (seq 0 (nv - 1))) lms = true); [|congruence].
      apply existsb_exists. exists l. split; auto. apply forallb_forall. intros i Hi. apply in_seq in Hi. apply N.leb_le.
      specialize (Hd i). rewrite ex_mmul in Hd by (rewrite xpow_length; auto). rewrite ex_xpow in Hd by lia.
      destruct (Nat.eqb_spec i (nv - 1)); lia.
Qed.
Print Assumptions C24_colon_no_zero.

(** A staircase in 3 variables: x^2, xy, y^3, z^2, yz. *)
Definition ex_lms : list mono := [[2;0;0]; [1;1;0]; [0;3;0]; [0;0;2]; [0;1;1]].
Definition ex_std : list mono := [[0;0;0]; [0;0;1]; [0;1;0]; [1;0;0]; [1;0;1]; [0;2;0]].
Example C24_ex : lms_ok 3 ex_lms /\ monomial_basis 20 3 ex_lms = Ok (Some ex_std) /\ lists (standard 3 ex_lms) ex_std.
Proof.
  split; [|split; [vm_compute; reflexivity|]].
  - repeat constructor; intros i; unfold i32_max; do 4 (destruct i as [|i]; cbn; try lia).
  - assert (E : monomial_basis 20 3 ex_lms = Ok (Some ex_std)) by (vm_compute; reflexivity).
    split.
    + repeat constructor; cbn; intuition discriminate.
    + intros m. split.
      * cbn. intros H. repeat destruct H as [<-|H]; [..|contradiction]; (split; [reflexivity|]); intros l Hl Hd;
          cbn in Hl; repeat destruct Hl as [<-|Hl]; try contradiction;
          pose proof (Hd 0%nat); pose proof (Hd 1%nat); pose proof (Hd 2%nat); cbn in *; lia.
      * intros [Hl Hn]. destruct m as [|a [|b [|c [|]]]]; try discriminate.
        assert (Ha : a < 2). { destruct (N.lt_ge_cases a 2); auto. exfalso. apply (Hn [2;0;0]); [cbn; auto|].
          intros i. do 4 (destruct i as [|i]; cbn; try lia). }
        assert (Hb : b < 3). { destruct (N.lt_ge_cases b 3); auto. exfalso. apply (Hn [0;3;0]); [cbn; auto|].
          intros i. do 4 (destruct i as [|i]; cbn; try lia). }
        assert (Hc : c < 2). { destruct (N.lt_ge_cases c 2); auto. exfalso. apply (Hn [0;0;2]); [cbn; auto|].
          intros i. do 4 (destruct i as [|i]; cbn; try lia). }
        assert (Hab : a = 0 \/ b = 0). { destruct (N.eq_dec a 0), (N.eq_dec b 0); auto. exfalso. apply (Hn [1;1;0]); [cbn; auto|].
          intros i. do 4 (destruct i as [|i]; cbn; try lia). }
        assert (Hbc : b = 0 \/ c = 0). { destruct (N.eq_dec b 0), (N.eq_dec c 0); auto. exfalso. apply (Hn [0;1;1]); [cbn; auto 6|].
          intros i. do 4 (destruct i as [|i]; cbn; try lia). }
        assert (Ea : a = 0 \/ a = 1) by lia. assert (Eb : b = 0 \/ b = 1 \/ b = 2) by lia. assert (Ec : c = 0 \/ c = 1) by lia.
        destruct Ea as [-> | ->], Eb as [-> | [-> | ->]], Ec as [-> | ->]; cbn; auto 8; exfalso; lia.
Qed.
Example C24_ex_none : monomial_basis 5 2 [[0;0]] = Ok None.
Proof. reflexivity. Qed.
Example C24_ex_bounded : monomial_basis_colon 9 2 [[1;1]] 2 = Ok (Some [[0;0]; [0;1]; [1;0]; [0;2]; [2;0]]).
Proof. reflexivity. Qed.
Example C24_ex_no_zero : monomial_basis_colon_no_zero 9 2 [[1;1]] 2 = Ok (Some [[1;0]; [2;0]]).
Proof. reflexivity. Qed.
Example C24_ex_enlarged : monomial_basis_enlarged 9 2 [[1;1]; [3;0]] = Ok (Some [[0;0]; [0;1]; [1;0]; [0;2]; [2;0]; [0;3]]).
Proof. reflexivity. Qed.

(** ** C25: in no execution, however long, is there a write outside the work buffer, an invalid read, or an
    overflow of an exponent or of an index sum. *)
Theorem C25_buffer nv lms L : (1 <= nv)%nat -> lms_ok nv lms -> lists (standard nv lms) L ->
  N.of_nat (nv * length L) <= i32_max -> forall fuel, monomial_basis fuel nv lms <> Bad.
Proof.
  intros Hnv Hl HL Hsz fuel E. apply (upto_bad _ _ _ _ (S (length L))) in E.
  destruct (C24_staircase nv lms L Hnv Hl HL Hsz (fuel + S (length L)) ltac:(lia)) as (r & Hr & _).
  unfold monomial_basis in Hr. congruence.
Qed.
Print Assumptions C25_buffer.

Theorem C25_buffer_bounded nv lms D L : (1 <= nv)%nat -> lms_ok nv lms -> N.of_nat D < i32_max ->
  lists (fun m => standard nv lms m /\ mdeg m <= N.of_nat D) L -> N.of_nat (nv * length L) <= i32_max ->
  forall fuel, monomial_basis_colon fuel nv lms D <> Bad.
Proof.
  intros Hnv Hl HD HL Hsz fuel E. apply (upto_bad _ _ _ _ (S (length L))) in E.
  destruct (C24_bounded nv lms D L Hnv Hl HD HL Hsz (fuel + S (length L)) ltac:(lia)) as (r & Hr & _).
  unfold monomial_basis_colon in Hr. congruence.
Qed.
Print Assumptions C25_buffer_bounded.

(** Without the size hypothesis the claim fails: with 65536 variables and the squares of the variables as leading
    monomials, the very first sum of the index table does not fit its 32-bit accumulator. *)
Theorem C25_large_refuted : exists nv lms, lms_ok nv lms /\ finitely_many (standard nv lms) /\
  forall fuel, (1 <= fuel)%nat -> monomial_basis fuel nv lms = Bad.
Proof.
  assert (E0 : exists nv, N.of_nat nv = 65536) by (exists (N.to_nat 65536); apply N2Nat.id).
  destruct E0 as [nv E0]. set (lms := map (fun i => xpow nv i 2) (seq 0 nv)).
  assert (Hl : lms_ok nv lms).
  { apply Forall_forall. intros l Hl. apply in_map_iff in Hl. destruct Hl as (i & <- & Hi). apply in_seq in Hi.
    split; [apply xpow_length|]. intros j. rewrite ex_xpow by lia. unfold i32_max. destruct (j =? i)%nat; lia. }
  pose proof (lms_ok_len _ _ Hl) as Hl'.
  assert (Hnv : (1 <= nv)%nat) by lia.
  assert (Hstd : forall m, length m = nv -> (forall i, ex m i <= 1) -> standard nv lms m).
  { intros m Hm H1. split; auto. intros l Hin Hd. apply in_map_iff in Hin. destruct Hin as (i & <- & Hi). apply in_seq in Hi.
    specialize (Hd i). rewrite ex_xpow, Nat.eqb_refl in Hd by lia. specialize (H1 i). lia. }
  exists nv, lms. split; auto. split.
  - exists (cube nv 1). intros m [Hm Hs]. apply in_cube; auto. intros i. cbn.
    destruct (Nat.lt_ge_cases i nv) as [Hi|Hi]; [|rewrite ex_overflow by lia; lia].
    destruct (N.le_gt_cases (ex m i) 1); auto. exfalso. apply (Hs (xpow nv i 2)).
    + apply in_map_iff. exists i. split; auto. apply in_seq. lia.
    + intros j. rewrite ex_xpow by auto. destruct (Nat.eqb_spec j i) as [->|]; lia.
  - intros fuel Hf. destruct fuel as [|f]; [lia|].
    assert (Hone : standard nv lms (mone nv)).
    { apply Hstd; [apply mone_length|]. intros i. rewrite ex_mone. lia. }
    unfold monomial_basis, monomial_basis_upto. fold (mone nv).
    rewrite (dvb_some nv lms Hl') by apply mone_length.
    pose proof (keep_iff nv lms Hl' (mone nv) (mone_length nv)) as Hk. unfold keep in Hk.
    destruct (dvb nv lms (mone nv)); cbn [negb] in Hk; [exfalso; destruct Hk as [_ Hk]; specialize (Hk Hone); discriminate|].
    pose proof (level0 nv lms Hone) as HL0.
    assert (Hz : forall k, list_sum (repeat 0%nat k) = 0%nat) by (induction k; cbn; auto).
    rewrite sum_ok by (rewrite Hz; unfold i32_max; lia). rewrite Hz.
    assert (Hi : repeat 0%nat nv = ind_of nv (T0 nv) 1).
    { unfold ind_of, T0. cbn [length]. change (1 - 1)%nat with 0%nat.
      assert (G : forall n k, repeat 0%nat n = map (fun _ => 0%nat) (seq k n)); [|apply G].
      induction n as [|n IHn]; intros k; cbn; [reflexivity|]. f_equal. apply IHn. }
    unfold generate_new_elts_basis. rewrite Hi.
    pose proof (gen_n_ok nv lms Hl' (T0 nv) [mone nv] (0 + nv)) as HG. change (length [mone nv]) with 1%nat in HG.
    rewrite HG; clear HG.
    2:{ intros n Hn. exists []. reflexivity. }
    2:{ intros n Hn. constructor; [|constructor]. split; [apply mone_length|]. rewrite ex_mone. unfold i32_max; lia. }
    2:{ lia. }
    2:{ right. unfold tot_attempts, T0. cbn [length]. rewrite list_sum_const, seq_length. lia. }
    cbn [app].
    assert (Hlen : forall n, (n <= nv)%nat -> length (next nv lms (T0 nv) n) = n).
    { induction n as [|n IH]; intros Hn; [reflexivity|]. cbn [next]. rewrite app_length, IH by lia. unfold chunk, T0. cbn [map filter].
      assert (Hkk : keep nv lms (bump n (mone nv)) = true).
      { apply keep_iff; auto; [rewrite bump_length; apply mone_length|]. apply Hstd; [rewrite bump_length; apply mone_length|].
        intros i. rewrite ex_bump by (rewrite mone_length; lia). rewrite ex_mone. destruct (i =? n)%nat; lia. }
      rewrite Hkk. reflexivity. }
    cbn [mb_loop]. assert (Hpos : (0 <? length (next nv lms (T0 nv) nv))%nat = true) by (apply Nat.ltb_lt; rewrite Hlen; lia).
    rewrite Hpos. cbn [andb].
    assert (Hne : next nv lms (T0 nv) nv <> []) by (intros E; pose proof (Hlen nv ltac:(lia)) as G; rewrite E in G; cbn in G; lia).
    assert (Hil : length (ind_of nv (T0 nv) 1) = nv) by (unfold ind_of; rewrite map_length, seq_length; reflexivity).
    pose proof (update_indices_ok nv lms Hl' 0 (T0 nv) [mone nv] (ind_of nv (T0 nv) 1) HL0 Hne Hnv Hil) as HU.
    match goal with |- match match ?u with _ => _ end with _ => _ end = _ => replace u with
       (Some (ind_of nv (next nv lms (T0 nv)) (length ([mone nv] ++ next nv lms (T0 nv) nv)))) by (symmetry; exact HU) end.
    assert (HS : sum (ind_of nv (next nv lms (T0 nv)) (length ([mone nv] ++ next nv lms (T0 nv) nv))) = None).
    { rewrite app_length, Hlen by lia. cbn [length]. unfold ind_of, sum.
      assert (Hm : map (fun p => (1 + nv - length (next nv lms (T0 nv) (nv - p)))%nat) (seq 0 nv) = map S (seq 0 nv)).
      { apply map_ext_in. intros p Hp. apply in_seq in Hp. rewrite Hlen by lia. lia. }
      rewrite Hm.
      assert (Hs : forall l s, i32_max < N.of_nat (s + list_sum l) -> sum_ind s l = None \/ i32_max < N.of_nat s).
      { induction l as [|x l IH]; intros s H0; [right; cbn in H0; lia|]. left. cbn [sum_ind].
        destruct (N.leb_spec (N.of_nat (s + x)) i32_max) as [Hle|]; auto.
        destruct (IH (s + x)%nat) as [G|G]; auto; [|lia]. rewrite lsum_cons in H0. lia. }
      assert (Ht : forall k n, (2 * list_sum (map S (seq k n)) = n * (2 * k + n + 1))%nat).
      { intros k n. revert k. induction n as [|n IH]; intros k; [reflexivity|]. cbn [seq map]. rewrite lsum_cons.
        specialize (IH (S k)). nia. }
      specialize (Ht 0%nat nv). destruct (Hs (map S (seq 0 nv)) 0%nat) as [G|G]; auto.
      - unfold i32_max. apply (f_equal N.of_nat) in Ht. rewrite !Nat2N.inj_mul, !Nat2N.inj_add in Ht. rewrite E0 in Ht.
        rewrite Nat2N.inj_add. set (S0 := N.of_nat (list_sum (map S (seq 0 nv)))) in *. clearbody S0. change (N.of_nat 2) with 2 in Ht. change (N.of_nat 1) with 1 in Ht. change (N.of_nat 0) with 0 in *. lia.
      - unfold i32_max in G. cbn in G. lia. }
    rewrite HS. reflexivity.
Qed.
Print Assumptions C25_large_refuted.

(** ** C26 *)
Theorem C26_dimension_zero nv lms : (1 <= nv)%nat -> Forall (fun l => length l = nv) lms -> minimal_set lms ->
  ~ In (mone nv) lms -> has_dimension_zero nv lms = true <-> finitely_many (standard nv lms).
Proof. apply has_dimension_zero_ok. Qed.
Print Assumptions C26_dimension_zero.

(** The two hypotheses on the set are needed: a redundant pure power, or the constant 1, is counted as well. *)
Theorem C26_redundant_refuted : has_dimension_zero 2 [[1;0]; [2;0]] = true /\ ~ finitely_many (standard 2 [[1;0]; [2;0]]).
Proof.
  split; [reflexivity|]. intros [L HL]. destruct (degs_bounded L) as [D HD].
  specialize (HD [0; D + 1]). cbn in HD. assert (In [0; D + 1] L); [|specialize (HD H); lia].
  apply HL. split; [reflexivity|]. intros l [<-|[<-|[]]] Hd; specialize (Hd 0%nat); cbn in Hd; lia.
Qed.
Print Assumptions C26_redundant_refuted.

Example C26_ex : minimal_set ex_lms /\ ~ In (mone 3) ex_lms /\ has_dimension_zero 3 ex_lms = true.
Proof.
  split; [|split; [|reflexivity]].
  - split; [repeat constructor; cbn; intuition discriminate|].
    intros a b Ha Hb Hd. cbn in Ha, Hb. repeat destruct Ha as [<-|Ha]; try contradiction;
      repeat destruct Hb as [<-|Hb]; try contradiction; auto; exfalso;
      pose proof (Hd 0%nat); pose proof (Hd 1%nat); pose proof (Hd 2%nat); cbn in *; lia.
  - cbn. intuition discriminate.
Qed.
