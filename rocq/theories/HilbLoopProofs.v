From Coq Require Import ZArith NArith Arith List Bool Lia Sorted.
From Verif Require Import ModInvModel MonoSpec MonoSpecProofs HilbSpec HilbModel HilbProofs.
Import ListNotations.
Open Scope N_scope.

Lemma drl_sorted_nodup (l : list mono) : StronglySorted drl_lt l -> NoDup l.
Proof.
  induction l as [|a l IH]; intros H; [constructor|]. inversion H as [|? ? H1 H2]; subst. constructor; auto.
  intros Hin. rewrite Forall_forall in H2. apply (drl_irrefl a). auto.
Qed.

Lemma NoDup_map_on {A B} (f : A -> B) (l : list A) :
  (forall x y, In x l -> In y l -> f x = f y -> x = y) -> NoDup l -> NoDup (map f l).
Proof.
  induction l as [|a l IH]; intros Hf Hn; cbn; [constructor|]. inversion Hn; subst. constructor.
  - rewrite in_map_iff. intros (x & Hx & Hin). assert (x = a) by (apply Hf; cbn; auto). subst. auto.
  - apply IH; auto. intros; apply Hf; cbn; auto.
Qed.

Lemma lsum_cons x l : list_sum (x :: l) = (x + list_sum l)%nat.
Proof. reflexivity. Qed.

Lemma list_sum_le {A} (f g : A -> nat) l : (forall x, In x l -> (f x <= g x)%nat) -> (list_sum (map f l) <= list_sum (map g l))%nat.
Proof.
  induction l as [|a l IH]; intros H; [cbn; lia|]. cbn [map]. rewrite !lsum_cons. pose proof (H a ltac:(left; auto)).
  specialize (IH ltac:(intros; apply H; cbn; auto)). lia.
Qed.

Lemma list_sum_const {A} c (l : list A) : list_sum (map (fun _ => c) l) = (length l * c)%nat.
Proof. induction l as [|a l IH]; [reflexivity|]. cbn [map]. rewrite lsum_cons, IH. cbn [length]. lia. Qed.

Lemma list_sum_in {A} (f : A -> nat) l x : In x l -> (f x <= list_sum (map f l))%nat.
Proof. induction l as [|a l IH]; [intros []|]. cbn [map]. rewrite lsum_cons. intros [->|H]; [lia|]. specialize (IH H). lia. Qed.

(** an element-to-class covering bounds the length *)
Lemma cover_length {A} (c : nat -> A -> bool) (I : list nat) (l : list A) :
  (forall x, In x l -> exists p, In p I /\ c p x = true) ->
  (length l <= list_sum (map (fun p => length (filter (c p) l)) I))%nat.
Proof.
  induction l as [|a l IH]; intros H; [cbn; lia|].
  destruct (H a) as (p & Hp & Hc); [left; auto|].
  specialize (IH ltac:(intros; apply H; cbn; auto)).
  assert (G : (1 + list_sum (map (fun p => length (filter (c p) l)) I) <=
               list_sum (map (fun p => length (filter (c p) (a :: l))) I))%nat); [|cbn [length]; lia].
  clear IH H. induction I as [|q I IHI]; [contradiction|]. cbn [map]. rewrite !lsum_cons.
  assert (M : (list_sum (map (fun p => length (filter (c p) l)) I) <= list_sum (map (fun p => length (filter (c p) (a :: l))) I))%nat).
  { apply list_sum_le. intros x _. cbn [filter]. destruct (c x a); cbn [length]; lia. }
  destruct Hp as [->|Hp].
  - cbn [filter]. rewrite Hc. cbn [length]. cbn [filter] in M. lia.
  - specialize (IHI Hp). assert ((length (filter (c q) l) <= length (filter (c q) (a :: l)))%nat).
    { cbn [filter]. destruct (c q a); cbn [length]; lia. }
    lia.
Qed.

(** powers of one variable *)
Definition xpow (nv w : nat) (d : N) : mono := map (fun i => if (i =? w)%nat then d else 0) (seq 0 nv).
Lemma xpow_length nv w d : length (xpow nv w d) = nv.
Proof. unfold xpow. rewrite map_length, seq_length. reflexivity. Qed.
Lemma ex_xpow nv w d i : (w < nv)%nat -> ex (xpow nv w d) i = if (i =? w)%nat then d else 0.
Proof.
  intros Hw. unfold ex, xpow. destruct (Nat.lt_ge_cases i nv) as [H|H].
  - set (f := fun i0 : nat => if (i0 =? w)%nat then d else 0).
    rewrite (nth_indep (map f (seq 0 nv)) 0 (f 0%nat)) by (rewrite map_length, seq_length; auto).
    rewrite map_nth, seq_nth by auto. reflexivity.
  - rewrite nth_overflow by (rewrite map_length, seq_length; auto). destruct (Nat.eqb_spec i w); auto; lia.
Qed.

Lemma mdeg_single (m : mono) : forall w, (forall i, i <> w -> ex m i = 0) -> mdeg m = ex m w.
Proof.
  induction m as [|x m IH]; intros w H.
  - rewrite ex_nil. reflexivity.
  - rewrite mdeg_cons. destruct w as [|w].
    + assert (mdeg m = 0); [|change (ex (x :: m) 0) with x; lia]. rewrite (IH 0%nat); [apply (H 1%nat); lia|].
      intros i Hi. apply (H (S i)). lia.
    + assert (x = 0) by (apply (H 0%nat); lia). rewrite (IH w); [change (ex (x :: m) (S w)) with (ex m w); lia|]. intros i Hi. apply (H (S i)). lia.
Qed.

Lemma sum_ind_ok ind : forall s, N.of_nat (s + list_sum ind) <= i32_max -> sum_ind s ind = Some (s + list_sum ind)%nat.
Proof.
  induction ind as [|x ind IH]; intros s H; cbn [sum_ind].
  - cbn. f_equal. lia.
  - rewrite lsum_cons in *.
    destruct (N.leb_spec (N.of_nat (s + x)) i32_max); [|lia]. rewrite IH; [f_equal; lia|]. lia.
Qed.

Lemma sum_ok ind : N.of_nat (list_sum ind) <= i32_max -> sum ind = Some (list_sum ind).
Proof. intros H. unfold sum. rewrite sum_ind_ok; auto. Qed.

Section S.
Variable nv : nat.
Variable lms : list mono.
Hypothesis Hlms : Forall (fun l => length l = nv) lms.
Hypothesis Hnv : (1 <= nv)%nat.

Notation next := (next nv lms).
Notation level := (level nv lms).

Definition minvarb (w : nat) (m : mono) : bool := negb (ex m w =? 0) && forallb (fun i => ex m i =? 0) (seq 0 w).
Lemma minvarb_iff w m : minvarb w m = true <-> ex m w <> 0 /\ forall i, (i < w)%nat -> ex m i = 0.
Proof.
  unfold minvarb. rewrite andb_true_iff, negb_true_iff, N.eqb_neq, forallb_forall. split.
  - intros [H1 H2]. split; auto. intros i Hi. apply N.eqb_eq. apply H2. apply in_seq. lia.
  - intros [H1 H2]. split; auto. intros i Hi. apply in_seq in Hi. apply N.eqb_eq. apply H2. lia.
Qed.

Lemma minvar_exists (m : mono) : length m = nv -> mdeg m <> 0 -> exists w, (w < nv)%nat /\ minvarb w m = true.
Proof.
  intros Hl Hd. destruct (first_diff m (mone nv)) as [E|(i & _ & H1 & H2)]; [rewrite mone_length; auto| |].
  - rewrite E, mdeg_mone in Hd. congruence.
  - exists i. rewrite minvarb_iff. rewrite ex_mone in H1. split; [|split; auto].
    + destruct (Nat.lt_ge_cases i nv); auto. rewrite ex_overflow in H1 by lia. congruence.
    + intros j Hj. rewrite (H2 j Hj), ex_mone. reflexivity.
Qed.

Lemma cap_ok d T lo : level d T -> (forall n, (1 <= n <= nv)%nat -> exists pre, T nv = pre ++ T n) -> (1 <= lo)%nat ->
  (length (next T nv) < list_sum (ind_of nv T (lo + length (T nv))) + nv)%nat.
Proof.
  intros HL Hsuf Hlo. unfold ind_of.
  assert (Hc : (length (next T nv) <= list_sum (map (fun p => length (filter (minvarb (nv - 1 - p)) (next T nv))) (seq 0 nv)))%nat).
  { apply (cover_length (fun p => minvarb (nv - 1 - p))). intros m Hm. apply (in_next nv lms Hlms d) in Hm; [|auto|lia].
    destruct Hm as (Hs & Hd & _). destruct (minvar_exists m) as (w & Hw & Hwm); [apply Hs|lia|].
    exists (nv - 1 - w)%nat. split; [apply in_seq; lia|]. replace (nv - 1 - (nv - 1 - w))%nat with w by lia. auto. }
  assert (Hp : (list_sum (map (fun p => lo + length (filter (minvarb (nv - 1 - p)) (next T nv))) (seq 0 nv)) <=
                list_sum (map (fun p => (lo + length (T nv) - length (T (nv - p))) + 1) (seq 0 nv)))%nat).
  { apply list_sum_le. intros p Hp. apply in_seq in Hp. set (w := (nv - 1 - p)%nat). replace (nv - p)%nat with (S w) by lia.
    destruct (Hsuf (S w)) as [pre Hpre]; [lia|].
    assert (HK : (length (filter (minvarb w) (next T nv)) <= length (xpow nv w d :: pre))%nat).
    { rewrite <- (map_length (drop w)). apply NoDup_incl_length.
      - apply NoDup_map_on.
        + intros x y Hx Hy E. apply filter_In in Hx. apply filter_In in Hy. destruct Hx as [Hx1 Hx2], Hy as [Hy1 Hy2].
          apply minvarb_iff in Hx2. apply minvarb_iff in Hy2.
          apply (in_next nv lms Hlms d) in Hx1; [|auto|lia]. apply (in_next nv lms Hlms d) in Hy1; [|auto|lia].
          destruct Hx1 as ((Hxl & _) & _), Hy1 as ((Hyl & _) & _).
          rewrite <- (bump_drop w x), <- (bump_drop w y), E; try tauto; lia.
        + apply NoDup_filter. apply drl_sorted_nodup. apply (next_sorted nv lms Hlms d); auto.
      - intros m' Hm'. apply in_map_iff in Hm'. destruct Hm' as (m & <- & Hm). apply filter_In in Hm. destruct Hm as [Hm Hmv].
        apply minvarb_iff in Hmv. destruct Hmv as [Hmw Hmi].
        apply (in_next nv lms Hlms d) in Hm; [|auto|lia]. destruct Hm as (Hs & Hd & _).
        assert (Hml : length m = nv) by apply Hs.
        assert (Hin : In (drop w m) (T nv)).
        { apply (lv_in _ _ _ _ HL); [lia|]. split; [|split].
          - apply standard_down with m; auto; [rewrite drop_length; auto|apply drop_dvd].
          - apply mdeg_drop; auto; lia.
          - intros i Hi. apply ex_overflow. rewrite drop_length. lia. }
        rewrite Hpre in Hin. apply in_app_iff in Hin. destruct Hin as [Hin|Hin]; [right; auto|left].
        apply (lv_in _ _ _ _ HL) in Hin; [|lia]. destruct Hin as (_ & Hd' & Hlow).
        assert (Hz : forall i, i <> w -> ex (drop w m) i = 0).
        { intros i Hi. destruct (Nat.lt_ge_cases i w).
          - rewrite ex_drop by lia. destruct (Nat.eqb_spec i w); [lia|]. apply Hmi; auto.
          - apply Hlow. lia. }
        apply ex_eq; [rewrite xpow_length, drop_length; auto|]. intros i. rewrite ex_xpow by lia.
        destruct (Nat.eqb_spec i w) as [->|Hiw]; [|symmetry; auto].
        rewrite <- Hd'. apply mdeg_single. auto. }
    cbn [length] in HK. rewrite Hpre, app_length. lia. }
  assert (E1 : forall (f : nat -> nat) c l, list_sum (map (fun p => (c + f p)%nat) l) = (length l * c + list_sum (map f l))%nat).
  { intros f c l. induction l as [|a l IHl]; [reflexivity|]. cbn [map]. rewrite !lsum_cons, IHl. cbn [length]. lia. }
  assert (E2 : forall (f : nat -> nat) c l, list_sum (map (fun p => (f p + c)%nat) l) = (length l * c + list_sum (map f l))%nat).
  { intros f c l. induction l as [|a l IHl]; [reflexivity|]. cbn [map]. rewrite !lsum_cons, IHl. cbn [length]. lia. }
  rewrite E1, E2, seq_length in Hp. nia.
Qed.

(** ** The main loop *)
Variable maxdeg : option nat.
Definition within (m : mono) : Prop := match maxdeg with Some D => mdeg m <= N.of_nat D | None => True end.
Definition good (m : mono) : Prop := standard nv lms m /\ within m.

Variable L : list mono.
Hypothesis HL1 : forall m, good m -> In m L.
Hypothesis HL2 : N.of_nat (nv * length L) <= i32_max.
Hypothesis Hexp : forall m, good m -> forall i, ex m i < i32_max.

Lemma within_le a b : mdeg a <= mdeg b -> within b -> within a.
Proof. unfold within. destruct maxdeg; auto. lia. Qed.


Lemma mb_loop_ok : forall fuel T d basis ind deg,
  level d T -> length ind = nv -> (1 <= length basis)%nat -> deg = S (N.to_nat d) ->
  (forall m, In m basis <-> standard nv lms m /\ mdeg m <= d) -> (forall m, In m basis -> within m) ->
  StronglySorted drl_lt basis -> (length L < fuel + length basis)%nat ->
  exists b, mb_loop fuel nv lms maxdeg deg basis (next T nv) ind = Ok b /\
    (forall m, In m b <-> good m) /\ StronglySorted drl_lt b.
Proof.
  induction fuel as [|f IH]; intros T d basis ind deg HL Hind Hb Hdeg Hin Hw Hs Hf.
  { exfalso. assert (length basis <= length L)%nat; [|lia]. apply NoDup_incl_length; [apply drl_sorted_nodup; auto|].
    intros m Hm. apply HL1. split; auto. apply Hin. auto. }
  cbn [mb_loop].
  destruct (Nat.ltb_spec 0 (length (next T nv))) as [Hne|Hne]; cbn [andb].
  2:{ exists basis. split; auto. split; auto. intros m. split.
      - intros Hm. split; auto. apply Hin; auto.
      - intros [Hm1 Hm2]. apply Hin. split; auto.
        (* no standard monomial of degree d+1, hence none above *)
        assert (Hno : forall x, standard nv lms x -> mdeg x <> d + 1).
        { intros x Hx Hxd. assert (Hin' : In x (next T nv)).
          { apply (in_next nv lms Hlms d); auto. split; auto. split; auto. intros i Hi. apply ex_overflow. destruct Hx; lia. }
          destruct (next T nv); [contradiction|cbn in Hne; lia]. }
        assert (Hdown : forall k x, standard nv lms x -> mdeg x = d + 1 + N.of_nat k -> False).
        { induction k as [|k IHk]; intros x Hx Hxd; [apply (Hno x Hx); lia|].
          destruct (minvar_exists x) as (w & Hw1 & Hw2); [apply Hx|lia|]. apply minvarb_iff in Hw2.
          assert (Hxl : length x = nv) by apply Hx.
          apply (IHk (drop w x)).
          - apply standard_down with x; auto; [rewrite drop_length; auto|apply drop_dvd].
          - apply mdeg_drop; [lia|tauto|lia]. }
        destruct (N.le_gt_cases (mdeg m) d) as [|Hgt]; auto. exfalso.
        apply (Hdown (N.to_nat (mdeg m - d - 1)) m Hm1). lia. }
  destruct (match maxdeg with Some D => (deg <=? D)%nat | None => true end) eqn:EM.
  2:{ exists basis. split; auto. split; auto. intros m. split.
      - intros Hm. split; auto. apply Hin; auto.
      - intros [Hm1 Hm2]. apply Hin. split; auto. unfold within in Hm2. destruct maxdeg as [D|]; [|discriminate].
        apply Nat.leb_gt in EM. lia. }
  assert (Hne' : next T nv <> []) by (intros E; rewrite E in Hne; cbn in Hne; lia).
  rewrite (update_indices_ok nv lms Hlms d T basis ind HL Hne' Hnv Hind).
  set (basis' := basis ++ next T nv) in *.
  assert (Hin' : forall m, In m basis' <-> standard nv lms m /\ mdeg m <= d + 1).
  { intros m. unfold basis'. rewrite in_app_iff, Hin, (in_next nv lms Hlms d T nv m HL ltac:(lia)). split.
    - intros [[H1 H2]|(H1 & H2 & _)]; split; auto; lia.
    - intros [H1 H2]. destruct (N.eq_dec (mdeg m) (d + 1)).
      + right. split; auto. split; auto. intros i Hi. apply ex_overflow. destruct H1; lia.
      + left. split; auto. lia. }
  assert (Hw' : forall m, In m basis' -> within m).
  { intros m Hm. apply Hin' in Hm. unfold within. destruct maxdeg as [D|]; auto. apply Nat.leb_le in EM. lia. }
  assert (Hs' : StronglySorted drl_lt basis').
  { apply sorted_app; auto; [apply (next_sorted nv lms Hlms d); auto|].
    intros x y Hx Hy. left. apply Hin in Hx. apply (in_next nv lms Hlms d) in Hy; [|auto|lia]. lia. }
  assert (Hlb : (length basis' <= length L)%nat).
  { apply NoDup_incl_length; [apply drl_sorted_nodup; auto|]. intros m Hm. apply HL1. split; auto. apply Hin'. auto. }
  assert (Hlb' : length basis' = (length basis + length (next T nv))%nat) by (unfold basis'; apply app_length).
  assert (Hsum : (list_sum (ind_of nv (next T) (length basis')) <= nv * length L)%nat).
  { unfold ind_of. transitivity (list_sum (map (fun _ => length L) (seq 0 nv))).
    - apply list_sum_le. intros; lia. - rewrite list_sum_const, seq_length. lia. }
  rewrite sum_ok by lia.
  pose proof (level_next nv lms Hlms d T HL) as HL'.
  unfold generate_new_elts_basis. rewrite (gen_n_ok nv lms Hlms (next T) basis').
  - cbn [app]. destruct (IH (next T) (d + 1) basis' (ind_of nv (next T) (length basis')) (S deg)) as (b & G1 & G2 & G3); auto.
    + unfold ind_of. rewrite map_length, seq_length. reflexivity.
    + lia.
    + lia.
    + lia.
    + exists b. auto.
  - intros n Hn. destruct (next_suffix nv lms T n) as [pre Hp]; [lia|]. exists (basis ++ pre). unfold basis'. rewrite Hp, app_assoc. reflexivity.
  - intros n Hn. apply Forall_forall. intros m Hm. apply (in_next nv lms Hlms d) in Hm; [|auto|lia].
    split; [apply Hm|]. apply Hexp. split; [apply Hm|]. apply Hw'. apply Hin'. split; [apply Hm|lia].
  - lia.
  - left. cbn [length]. rewrite Hlb'. apply (cap_ok (d + 1)); auto.
    intros n Hn. apply next_suffix. lia.
Qed.

Definition T0 : nat -> list mono := fun _ => [mone nv].

Lemma level0 : standard nv lms (mone nv) -> level 0 T0.
Proof.
  intros H1. constructor.
  - intros n m Hn. unfold T0. cbn. split.
    + intros [<-|[]]. split; auto. split; [apply mdeg_mone|]. intros i _. apply ex_mone.
    + intros (Hs & Hd & _). left. apply ex_eq; [rewrite mone_length; symmetry; apply Hs|]. intros i. rewrite ex_mone.
      symmetry. apply mdeg_zero. auto.
  - intros n Hn. constructor; constructor.
Qed.

Lemma monomial_basis_upto_ok fuel : (length L < fuel)%nat ->
  (standard nv lms (mone nv) /\ exists b, monomial_basis_upto fuel nv lms maxdeg = Ok (Some b) /\
    (forall m, In m b <-> good m) /\ StronglySorted drl_lt b) \/
  ((forall m, ~ standard nv lms m) /\ monomial_basis_upto fuel nv lms maxdeg = Ok None).
Proof.
  intros Hf. unfold monomial_basis_upto. fold (mone nv).
  rewrite (dvb_some nv lms Hlms) by apply mone_length.
  pose proof (keep_iff nv lms Hlms (mone nv) (mone_length nv)) as Hk. unfold keep in Hk.
  destruct (dvb nv lms (mone nv)) eqn:E; cbn [negb] in Hk.
  - right. split; auto. intros m Hm. assert (standard nv lms (mone nv)).
    { apply standard_down with m; auto; [apply mone_length|]. intros i. rewrite ex_mone. lia. }
    apply Hk in H. discriminate.
  - left. assert (H1 : standard nv lms (mone nv)) by (apply Hk; auto). split; auto.
    pose proof (level0 H1) as HL0.
    assert (Hi : repeat 0%nat nv = ind_of nv T0 1).
    { unfold ind_of, T0. cbn [length]. change (1 - 1)%nat with 0%nat. clear.
      assert (G : forall n k, repeat 0%nat n = map (fun _ => 0%nat) (seq k n)); [|apply G].
      induction n as [|n IHn]; intros k; cbn; [reflexivity|]. f_equal. apply IHn. }
    assert (Hz : forall k, list_sum (repeat 0%nat k) = 0%nat) by (induction k; cbn; auto).
    rewrite sum_ok by (rewrite Hz; unfold i32_max; lia). rewrite Hz.
    assert (Hg1 : good (mone nv)). { split; auto. unfold within. rewrite mdeg_mone. destruct maxdeg; auto. lia. }
    unfold generate_new_elts_basis. rewrite Hi.
    pose proof (gen_n_ok nv lms Hlms T0 [mone nv] (0 + nv)) as HG. change (length [mone nv]) with 1%nat in HG. rewrite HG; clear HG.
    + cbn [app]. destruct (mb_loop_ok fuel T0 0 [mone nv] (ind_of nv T0 1) 1) as (b & G1 & G2 & G3); auto.
      * unfold ind_of. rewrite map_length, seq_length. reflexivity.
      * intros m. cbn. split.
        -- intros [<-|[]]. split; auto. rewrite mdeg_mone. lia.
        -- intros [Hs Hd]. left. apply ex_eq; [rewrite mone_length; symmetry; apply Hs|]. intros i. rewrite ex_mone.
           symmetry. apply mdeg_zero. lia.
      * intros m [<-|[]]. apply Hg1.
      * constructor; constructor.
      * cbn. lia.
      * exists b. split; [|auto].
        match goal with |- context [mb_loop ?a1 ?a2 ?a3 ?a4 ?a5 ?a6 ?a7 ?a8] =>
          replace (mb_loop a1 a2 a3 a4 a5 a6 a7 a8) with (Ok b) by (symmetry; exact G1) end. reflexivity.
    + intros n Hn. exists []. reflexivity.
    + intros n Hn. constructor; [|constructor]. split; [apply mone_length|]. apply Hexp. auto.
    + lia.
    + right. unfold tot_attempts, T0. cbn [length]. rewrite list_sum_const, seq_length. lia.
Qed.
End S.

(** ** Finite staircases *)
Lemma degs_bounded (L : list mono) : exists D, forall m, In m L -> mdeg m <= D.
Proof.
  induction L as [|a L [D HD]]; [exists 0; intros m []|]. exists (N.max D (mdeg a)). intros m [<-|H]; [lia|]. specialize (HD m H). lia.
Qed.

Lemma finite_exp nv lms : Forall (fun l => length l = nv /\ forall i, ex l i <= i32_max) lms ->
  finitely_many (standard nv lms) -> forall m, standard nv lms m -> forall i, ex m i < i32_max.
Proof.
  intros Hl [L HL] m Hm i. destruct (N.lt_ge_cases (ex m i) i32_max) as [|Hge]; auto. exfalso.
  assert (Hi : (i < nv)%nat).
  { destruct (Nat.lt_ge_cases i nv); auto. rewrite ex_overflow in Hge by (destruct Hm; lia). unfold i32_max in Hge. lia. }
  destruct (degs_bounded L) as [D HD].
  set (x := xpow nv i (D + 1)).
  assert (Hx : standard nv lms x).
  { split; [apply xpow_length|]. intros l Hin Hd. destruct Hm as [_ Hm]. apply (Hm l Hin).
    rewrite Forall_forall in Hl. destruct (Hl l Hin) as [Hll Hle].
    intros j. destruct (Nat.eq_dec j i) as [->|Hj]; [specialize (Hle i); lia|].
    specialize (Hd j). unfold x in Hd. rewrite ex_xpow in Hd by auto. destruct (Nat.eqb_spec j i); [congruence|lia]. }
  specialize (HD x (HL x Hx)). rewrite (mdeg_single x i) in HD.
  - unfold x in HD. rewrite ex_xpow, Nat.eqb_refl in HD by auto. lia.
  - intros j Hj. unfold x. rewrite ex_xpow by auto. destruct (Nat.eqb_spec j i); congruence.
Qed.

(** ** Dimension zero *)
Lemma dimz_iff nv lms : (1 <= nv)%nat -> has_dimension_zero nv lms = true <-> (nv <= length (filter (is_pure_power nv) lms))%nat.
Proof.
  intros Hnv. unfold has_dimension_zero.
  assert (G : forall l k, (k < nv)%nat -> dimz_loop nv k l = true <-> (nv <= k + length (filter (is_pure_power nv) l))%nat).
  { induction l as [|m l IH]; intros k Hk; cbn [dimz_loop filter length].
    - rewrite Nat.leb_le. lia.
    - destruct (is_pure_power nv m); cbn [length].
      + destruct (Nat.leb_spec nv (S k)); [split; [lia|auto]|]. rewrite IH by auto. lia.
      + destruct (Nat.leb_spec nv k); [lia|]. apply IH; auto. }
  rewrite G by lia. lia.
Qed.

Definition nzs (nv : nat) (m : mono) := filter (fun i => negb (ex m i =? 0)) (seq 0 nv).
Definition tv (nv : nat) (m : mono) : nat := hd 0%nat (nzs nv m).

Lemma pure_power_iff nv m : (1 <= nv)%nat -> length m = nv -> m <> mone nv ->
  is_pure_power nv m = true <-> (exists i, (i < nv)%nat /\ ex m i <> 0 /\ forall j, j <> i -> ex m j = 0).
Proof.
  intros Hnv Hl Hone. unfold is_pure_power. rewrite Nat.leb_le.
  assert (Hsum : Nat.add (length (filter (fun i => ex m i =? 0) (seq 0 nv))) (length (nzs nv m)) = nv).
  { unfold nzs. transitivity (length (seq 0 nv)); [|apply seq_length]. generalize (seq 0 nv). intros l.
    induction l as [|a l IH]; cbn [filter length]; auto. destruct (ex m a =? 0); cbn [negb length]; lia. }
  assert (Hin : forall i, In i (nzs nv m) <-> ex m i <> 0).
  { intros i. unfold nzs. rewrite filter_In, negb_true_iff, N.eqb_neq, in_seq. split; [tauto|]. intros H. split; auto.
    destruct (Nat.lt_ge_cases i nv); [lia|]. rewrite ex_overflow in H by lia. congruence. }
  split.
  - intros Hc. destruct (nzs nv m) as [|i [|j r]] eqn:E; cbn [length] in Hsum; try lia.
    + exfalso. apply Hone. apply ex_eq; [rewrite mone_length; auto|]. intros i. rewrite ex_mone.
      destruct (N.eq_dec (ex m i) 0) as [|H]; auto. apply Hin in H. destruct H.
    + exists i. assert (Hi : ex m i <> 0) by (apply Hin; left; auto). split; [|split; auto].
      * destruct (Nat.lt_ge_cases i nv); auto. rewrite ex_overflow in Hi by lia. congruence.
      * intros j Hj. destruct (N.eq_dec (ex m j) 0) as [|H]; auto. apply Hin in H. destruct H as [H|[]]. congruence.
  - intros (i & Hi & Hx & Hz).
    assert ((length (nzs nv m) <= 1)%nat); [|lia]. change 1%nat with (length [i]). apply NoDup_incl_length.
    + apply NoDup_filter. apply seq_NoDup.
    + intros j Hj. apply Hin in Hj. left. destruct (Nat.eq_dec i j); auto. exfalso. apply Hj. apply Hz. auto.
Qed.

Lemma tv_spec nv m i : (i < nv)%nat -> ex m i <> 0 -> (forall j, j <> i -> ex m j = 0) -> tv nv m = i.
Proof.
  intros Hi Hx Hz. unfold tv. destruct (nzs nv m) as [|j r] eqn:E.
  - assert (In i (nzs nv m)); [|rewrite E in *; contradiction]. unfold nzs. apply filter_In. rewrite in_seq, negb_true_iff, N.eqb_neq. split; [lia|auto].
  - cbn. assert (H : In j (nzs nv m)) by (rewrite E; left; auto). unfold nzs in H. apply filter_In in H.
    rewrite negb_true_iff, N.eqb_neq in H. destruct (Nat.eq_dec j i); auto. exfalso. apply H. apply Hz. auto.
Qed.

Fixpoint cube (nv : nat) (D : nat) : list mono :=
  match nv with O => [[]] | S n => flat_map (fun x => map (cons (N.of_nat x)) (cube n D)) (seq 0 (S D)) end.
Lemma in_cube nv D : forall m, length m = nv -> (forall i, ex m i <= N.of_nat D) -> In m (cube nv D).
Proof.
  induction nv as [|n IH]; intros m Hl H.
  - destruct m; [left; auto|discriminate].
  - destruct m as [|x m]; [discriminate|]. cbn [cube]. apply in_flat_map. exists (N.to_nat x). split.
    + apply in_seq. specialize (H 0%nat). cbn in H. lia.
    + apply in_map_iff. exists m. rewrite N2Nat.id. split; auto. apply IH; [cbn in Hl; lia|]. intros i. apply (H (S i)).
Qed.

Lemma has_dimension_zero_ok nv lms : (1 <= nv)%nat -> Forall (fun l => length l = nv) lms -> minimal_set lms -> ~ In (mone nv) lms ->
  has_dimension_zero nv lms = true <-> finitely_many (standard nv lms).
Proof.
  intros Hnv Hl [Hnd Hmin] Hone. rewrite dimz_iff by auto. rewrite Forall_forall in Hl.
  set (pp := filter (is_pure_power nv) lms).
  assert (Hpp : forall m, In m pp <-> In m lms /\ exists i, (i < nv)%nat /\ ex m i <> 0 /\ forall j, j <> i -> ex m j = 0).
  { intros m. unfold pp. rewrite filter_In. split; intros [H1 H2]; (split; [auto|]); apply pure_power_iff in H2 || apply pure_power_iff; auto;
      intros ->; auto. }
  split.
  - intros Hc.
    assert (Hcov : incl (seq 0 nv) (map (tv nv) pp)).
    { apply NoDup_length_incl.
      - apply NoDup_map_on; [|apply NoDup_filter; auto].
        intros x y Hx Hy E. apply Hpp in Hx. apply Hpp in Hy. destruct Hx as (Hx & i & Hi & Hxi & Hxz), Hy as (Hy & j & Hj & Hyj & Hyz).
        rewrite (tv_spec nv x i), (tv_spec nv y j) in E by auto. subst j.
        destruct (N.le_ge_cases (ex x i) (ex y i)).
        + apply Hmin; auto. intros k. destruct (Nat.eq_dec k i) as [->|]; auto. rewrite Hxz by auto. lia.
        + symmetry. apply Hmin; auto. intros k. destruct (Nat.eq_dec k i) as [->|]; auto. rewrite Hyz by auto. lia.
      - rewrite map_length, seq_length. auto.
      - intros k Hk. apply in_map_iff in Hk. destruct Hk as (m & <- & Hm). apply Hpp in Hm. destruct Hm as (_ & i & Hi & Hx & Hz).
        rewrite (tv_spec nv m i) by auto. apply in_seq. lia. }
    destruct (degs_bounded lms) as [D HD].
    exists (cube nv (N.to_nat D)). intros m [Hml Hm]. apply in_cube; auto. intros i. rewrite N2Nat.id.
    destruct (Nat.lt_ge_cases i nv) as [Hi|Hi]; [|rewrite ex_overflow by lia; lia].
    assert (Hin : In i (map (tv nv) pp)) by (apply Hcov; apply in_seq; lia).
    apply in_map_iff in Hin. destruct Hin as (l & Htv & Hlp). apply Hpp in Hlp. destruct Hlp as (Hll & k & Hk & Hx & Hz).
    rewrite (tv_spec nv l k) in Htv by auto. subst k.
    destruct (N.le_gt_cases (ex m i) D) as [|Hgt]; auto. exfalso. apply (Hm l Hll). intros j.
    destruct (Nat.eq_dec j i) as [->|Hj]; [|rewrite Hz by auto; lia].
    specialize (HD l Hll). pose proof (ex_le_mdeg l i). lia.
  - intros [L HL]. destruct (degs_bounded L) as [D HD].
    assert (Hcov : incl (seq 0 nv) (map (tv nv) pp)).
    { intros i Hi. apply in_seq in Hi. set (x := xpow nv i (D + 1)).
      assert (Hdx : mdeg x = D + 1).
      { rewrite (mdeg_single x i).
        - unfold x. rewrite ex_xpow, Nat.eqb_refl by lia. auto.
        - intros j Hj. unfold x. rewrite ex_xpow by lia. destruct (Nat.eqb_spec j i); congruence. }
      destruct (existsb (fun l => forallb (fun j => ex l j <=? ex x j) (seq 0 nv)) lms) eqn:E.
      - apply existsb_exists in E. destruct E as (l & Hll & Hd). rewrite forallb_forall in Hd.
        assert (Hz : forall j, j <> i -> ex l j = 0).
        { intros j Hj. destruct (Nat.lt_ge_cases j nv); [|apply ex_overflow; rewrite Hl; auto].
          specialize (Hd j ltac:(apply in_seq; lia)). apply N.leb_le in Hd. unfold x in Hd. rewrite ex_xpow in Hd by lia.
          destruct (Nat.eqb_spec j i); [congruence|lia]. }
        apply in_map_iff. exists l. assert (Hnz : ex l i <> 0).
        { intros Hz0. apply Hone. replace (mone nv) with l; auto. apply ex_eq; [rewrite mone_length; auto|].
          intros j. rewrite ex_mone. destruct (Nat.eq_dec j i) as [->|]; auto. }
        split; [apply tv_spec; auto; lia|]. apply Hpp. split; auto. exists i. split; [lia|auto].
      - exfalso. assert (Hs : standard nv lms x).
        { split; [apply xpow_length|]. intros l Hll Hd.
          assert (existsb (fun l => forallb (fun j => ex l j <=? ex x j) (seq 0 nv)) lms = true); [|congruence].
          apply existsb_exists. exists l. split; auto. apply forallb_forall. intros j _. apply N.leb_le. apply Hd. }
        specialize (HD x (HL x Hs)). lia. }
    pose proof (NoDup_incl_length (seq_NoDup nv 0) Hcov) as Hlen. rewrite map_length, seq_length in Hlen. auto.
Qed.
