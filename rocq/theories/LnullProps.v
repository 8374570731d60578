(** C85: the left nullspace of a matrix modulo a prime, complete and compact forms. *)
From Coq Require Import ZArith Arith List Bool Lia Sorted Permutation Setoid Morphisms Znumtheory.
From Verif Require Import ModInvModel LinSpec FglmSpec MatVecProofs LnullSpec LnullModel LnullProofs.
Import ListNotations.
Open Scope Z_scope.

(** [Xt] is the kernel matrix given by FLINT. *)
Definition given (Xt : list (list Z)) (nr : nat) (K : nat -> nat -> Z) (N : list nat) : Prop :=
  forall i j, (i < nr)%nat -> (j < length N)%nat -> entry Xt i j = Some (K i j).

(** entries of the result *)
Definition at2 (X : list (list Z)) (i r : nat) : Z := nth r (nth i X []) 0.

(** The permutation: all indices, each once; first the rank profile and then the pivots, each in increasing order.  The matrix of the compact
    form holds the entries of the kernel at the rank profile. *)
Theorem C85_compact : forall p nr nc A K N Xt perm0, kernel p nr nc A K N -> given Xt nr K N -> length perm0 = nr ->
  exists R Y, compact Xt nr (length N) perm0 = Some (R ++ N, Y) /\ Permutation (R ++ N) (seq 0 nr) /\ StronglySorted lt R /\ StronglySorted lt N /\
    length R = (nr - length N)%nat /\ length Y = length N /\
    forall i j, (i < length N)%nat -> (j < length R)%nat -> entry Y i j = Some (K (nth j R 0%nat) i).
Proof.
  intros p nr nc A K N Xt perm0 HK HX H0. pose proof (NB p nr nc A K N HK) as HB.
  exists (gaps nr 0 N), (map (fun i => map (fun j => K (nth j (gaps nr 0 N) 0%nat) i) (seq 0 (rank nr N))) (seq 0 (length N))).
  split; [apply (compact_ok p nr nc A K N Xt HK HX perm0 H0)|].
  split; [|split; [apply gaps_sorted, HB|split; [apply (k_asc _ _ _ _ _ _ HK)|split; [apply (gaps_len p nr nc A K N HK)|split; [rewrite map_length, seq_length; reflexivity|]]]]].
  - apply NoDup_Permutation; [|apply seq_NoDup|].
    + pose proof (sorted_nodup _ (gaps_sorted nr N 0 HB)) as N1. pose proof (sorted_nodup _ (k_asc _ _ _ _ _ _ HK)) as N2.
      assert (D : forall x, In x (gaps nr 0 N) -> ~ In x N) by (intros x Hx; apply gaps_in in Hx; tauto).
      revert N1 D. generalize (gaps nr 0 N). intros l. induction l as [|a l IH]; intros N1 D; [exact N2|]. inversion N1; subst. cbn [app]. constructor.
      * rewrite in_app_iff. intros [H|H]; [auto|]. apply (D a); [left; auto|auto].
      * apply IH; auto. intros x Hx. apply D. right; auto.
    + intros x. rewrite in_app_iff, in_seq, gaps_in by auto. pose proof (k_lt _ _ _ _ _ _ HK x) as Hx. split.
      * intros [[Q _]|Q]; [lia|]. specialize (Hx Q). lia.
      * intros Q. destruct (in_dec Nat.eq_dec x N); [right; auto|left]. split; [lia|auto].
  - intros i j Hi Hj. rewrite (gaps_len p nr nc A K N HK) in Hj. unfold entry.
    rewrite (map_nth_error _ i _ (d := i)) by (rewrite (nth_error_nth' _ 0%nat) by (rewrite seq_length; lia); rewrite seq_nth by lia; reflexivity). cbn [obind].
    rewrite (map_nth_error _ j _ (d := j)) by (rewrite (nth_error_nth' _ 0%nat) by (rewrite seq_length; lia); rewrite seq_nth by lia; reflexivity). reflexivity.
Qed.
Print Assumptions C85_compact.

(** The complete form: a basis of all vectors [v] with [v A = 0], in reduced row echelon form; the coordinates of [v] are its entries at the pivots. *)
Theorem C85_basis : forall p nr nc A K N Xt perm0, kernel p nr nc A K N -> given Xt nr K N -> length perm0 = nr ->
  exists X, left_nullspace Xt nr (length N) perm0 = Some X /\ length X = length N /\
    (forall i, (i < length N)%nat -> length (nth i X []) = nr /\ leftnull p nr nc A (at2 X i)) /\
    (forall i k, (i < length N)%nat -> (k < length N)%nat -> at2 X i (nth k N 0%nat) = if (i =? k)%nat then 1 else 0) /\
    (forall i r, (i < length N)%nat -> (nth i N 0 < r < nr)%nat -> at2 X i r = 0) /\
    (forall v, leftnull p nr nc A v -> cong p nr v (fun r => sumn (length N) (fun i => v (nth i N 0%nat) * at2 X i r))) /\
    (forall v c, cong p nr v (fun r => sumn (length N) (fun i => c i * at2 X i r)) -> forall i, (i < length N)%nat -> eqp p (c i) (v (nth i N 0%nat))).
Proof.
  intros p nr nc A K N Xt perm0 HK HX H0. destruct (left_nullspace_ok p nr nc A K N Xt HK HX perm0 H0) as (X & E & L & H).
  assert (HE : forall i r, (i < length N)%nat -> (r < nr)%nat -> at2 X i r = K r i) by (intros i r Hi Hr; apply H; auto).
  assert (HN : forall k, (k < length N)%nat -> (nth k N 0 < nr)%nat) by (intros k Hk; apply (nthN p nr nc A K N HK); auto).
  exists X. split; [exact E|]. split; [exact L|].
  assert (U : forall v c, cong p nr v (fun r => sumn (length N) (fun i => c i * at2 X i r)) -> forall i, (i < length N)%nat -> eqp p (c i) (v (nth i N 0%nat))).
  { intros v c Hc i Hi. specialize (Hc (nth i N 0%nat) (HN i Hi)). cbv beta in Hc. symmetry. etransitivity; [exact Hc|].
    rewrite (sumn_ext _ _ (fun k => if (k =? i)%nat then c k else 0)).
    - rewrite sumn_delta by auto. reflexivity.
    - intros k Hk. rewrite HE by auto. rewrite (k_one _ _ _ _ _ _ HK) by auto. destruct (k =? i)%nat; ring. }
  split; [|split; [|split; [|split]]]; auto.
  - intros i Hi. split; [apply H, Hi|]. intros c Hc. rewrite <- (k_null _ _ _ _ _ _ HK i Hi c Hc). rewrite (sumn_ext _ _ (fun r => K r i * A r c)); [reflexivity|].
    intros r Hr. rewrite HE by auto. reflexivity.
  - intros i k Hi Hk. rewrite HE by auto. apply (k_one _ _ _ _ _ _ HK); auto.
  - intros i r Hi Hr. rewrite HE by (auto; lia). apply (k_low _ _ _ _ _ _ HK); auto.
  - intros v Hv. destruct (k_gen _ _ _ _ _ _ HK v Hv) as (c & Hc).
    assert (Hc' : cong p nr v (fun r => sumn (length N) (fun i => c i * at2 X i r))).
    { intros r Hr. rewrite (Hc r Hr). rewrite (sumn_ext _ _ (fun i => c i * at2 X i r)); [reflexivity|]. intros i Hi. rewrite HE by auto. reflexivity. }
    intros r Hr. rewrite (Hc' r Hr). apply sumn_eqp. intros i Hi. rewrite (U v c Hc' i Hi). reflexivity.
Qed.
Print Assumptions C85_basis.

(** The first part [R] of the permutation is the row rank profile: those rows are independent, and every other row is a combination of those of
    them that come before it. *)
Theorem C85_profile : forall p nr nc A K N Xt perm0, kernel p nr nc A K N -> given Xt nr K N -> length perm0 = nr ->
  exists R Y, compact Xt nr (length N) perm0 = Some (R ++ N, Y) /\
    (forall v, leftnull p nr nc A v -> (forall r, (r < nr)%nat -> ~ In r R -> eqp p (v r) 0) -> cong p nr v (fun _ => 0)) /\
    (forall n, (n < nr)%nat -> ~ In n R -> exists w, (forall r, w r <> 0 -> In r R /\ (r < n)%nat) /\
       forall c, (c < nc)%nat -> eqp p (A n c) (sumn nr (fun r => w r * A r c))).
Proof.
  intros p nr nc A K N Xt perm0 HK HX H0. destruct (C85_compact p nr nc A K N Xt perm0 HK HX H0) as (R & Y & E & P & _).
  exists R, Y. split; [exact E|].
  assert (HR : forall r, (r < nr)%nat -> ~ In r R <-> In r N).
  { intros r Hr. assert (I : In r (R ++ N)) by (apply (Permutation_in _ (Permutation_sym P)); apply in_seq; lia). apply in_app_iff in I.
    assert (ND : NoDup (R ++ N)) by (apply (Permutation_NoDup (Permutation_sym P)); apply seq_NoDup).
    split; [tauto|]. intros HN HRr. clear - ND HN HRr. induction R as [|a R IH]; [destruct HRr|]. inversion ND; subst. destruct HRr as [->|HRr]; [|auto]. apply H1. apply in_app_iff. auto. }
  split.
  - intros v Hv Hz r Hr. destruct (C85_basis p nr nc A K N Xt perm0 HK HX H0) as (X & _ & _ & _ & _ & _ & HB & _).
    rewrite (HB v Hv r Hr). transitivity (sumn (length N) (fun _ => 0)); [|rewrite sumn_zero; reflexivity]. apply sumn_eqp. intros i Hi.
    assert (Hn : (nth i N 0 < nr)%nat) by (apply (nthN p nr nc A K N HK); auto).
    rewrite (Hz (nth i N 0%nat) Hn) by (apply HR; [exact Hn|apply nth_In; auto]). rewrite Z.mul_0_l. reflexivity.
  - intros n Hn HnR. apply HR in HnR; [|exact Hn]. destruct (In_nth N n 0%nat HnR) as (i & Hi & En).
    set (w := fun r => if ((r <? n)%nat && negb (if in_dec Nat.eq_dec r N then true else false))%bool then - K r i else 0).
    exists w. split.
    + intros r. unfold w. destruct (Nat.ltb_spec r n); cbn [andb]; [|congruence]. destruct (in_dec Nat.eq_dec r N) as [|Hno]; cbn [negb]; [congruence|]. intros _. split; [|auto].
      destruct (in_dec Nat.eq_dec r R) as [|Hq]; [auto|]. apply HR in Hq; [tauto|lia].
    + intros c Hc. pose proof (k_null _ _ _ _ _ _ HK i Hi c Hc) as HZ.
      assert (HS : sumn nr (fun r => K r i * A r c) = A n c - sumn nr (fun r => w r * A r c)).
      { rewrite <- (sumn_delta nr n (fun r => A r c)) by auto. replace (sumn nr (fun i0 => if (i0 =? n)%nat then A i0 c else 0) - sumn nr (fun r => w r * A r c))
          with (sumn nr (fun i0 => if (i0 =? n)%nat then A i0 c else 0) + -1 * sumn nr (fun r => w r * A r c)) by ring.
        rewrite <- sumn_scal, <- sumn_add. apply sumn_ext. intros r Hr. unfold w.
        destruct (Nat.eqb_spec r n) as [->|Hne].
        - rewrite <- En at 1. rewrite (k_one _ _ _ _ _ _ HK) by auto. rewrite Nat.eqb_refl, Nat.ltb_irrefl. cbn [andb]. ring.
        - destruct (Nat.ltb_spec r n) as [Hl|Hl]; cbn [andb].
          + destruct (in_dec Nat.eq_dec r N) as [Hin|Hno]; cbn [negb]; [|ring].
            destruct (In_nth N r 0%nat Hin) as (k & Hk & Ek). rewrite <- Ek. rewrite (k_one _ _ _ _ _ _ HK) by auto.
            destruct (Nat.eqb_spec i k) as [->|]; [congruence|ring].
          + rewrite (k_low _ _ _ _ _ _ HK) by (auto; lia). ring. }
      cbv beta in HZ. rewrite HS in HZ. destruct HZ as [z Hz]. exists z. rewrite <- Hz. ring.
Qed.
Print Assumptions C85_profile.

(** A matrix of five rows and two columns modulo 7: rank profile 1, 3 and pivots 0, 2, 4. *)
Definition A5 : list (list Z) := [[0; 0]; [1; 2]; [3; 6]; [0; 1]; [2; 0]].
Definition K5 : list (list Z) := [[1; 0; 0]; [0; 4; 5]; [0; 1; 0]; [0; 0; 4]; [0; 0; 1]].
Definition fn (M : list (list Z)) (i j : nat) : Z := nth j (nth i M []) 0.
Ltac small k := destruct k as [|k]; [|destruct k as [|k]; [|destruct k as [|k]; [|destruct k as [|k]; [|destruct k as [|k]; [|exfalso; lia]]]]].

Example C85_kernel_ex : kernel 7 5 2 (fn A5) (fn K5) [0; 2; 4]%nat.
Proof.
  constructor.
  - repeat constructor.
  - cbn. intros n [<-|[<-|[<-|[]]]]; lia.
  - cbn [length]. intros i k Hi Hk. small i; try lia; small k; try lia; reflexivity.
  - cbn [length]. intros i r Hi Hr. small i; try lia; small r; cbn in Hr; try lia; reflexivity.
  - cbn [length]. intros i Hi c Hc. small i; try lia; small c; try lia; (apply Z.mod_divide; [lia|reflexivity]).
  - intros v Hv. exists (fun i => v (2 * i)%nat). pose proof (Hv 0%nat ltac:(lia)) as H1. pose proof (Hv 1%nat ltac:(lia)) as H2.
    cbn [sumn] in H1, H2. unfold fn in H1, H2. cbn [nth A5] in H1, H2. destruct H1 as [a Ha], H2 as [b Hb].
    intros r Hr. cbn [sumn length]. unfold fn. small r; cbn [nth K5 Nat.mul Nat.add].
    + exists 0. ring.
    + exists (a - v 2%nat - v 4%nat). lia.
    + exists 0. ring.
    + exists (b - 2 * a). lia.
    + exists 0. ring.
Qed.
Example C85_compact_ex : compact K5 5 3 [9; 9; 9; 9; 9]%nat = Some ([1; 3; 0; 2; 4]%nat, [[0; 0]; [4; 0]; [5; 4]]).
Proof. reflexivity. Qed.
Example C85_basis_ex : left_nullspace K5 5 3 [9; 9; 9; 9; 9]%nat = Some [[1; 0; 0; 0; 0]; [0; 4; 1; 0; 0]; [0; 5; 0; 4; 1]].
Proof. reflexivity. Qed.
Example C85_given_ex : given K5 5 (fn K5) [0; 2; 4]%nat.
Proof. intros i j Hi Hj. cbn in Hj. small i; small j; try lia; reflexivity. Qed.
