(** Properties C10, C11, C12, C15, C16, C17, C49. *)
From Coq Require Import ZArith NArith Arith List Bool Lia.
From Verif Require Import ModInvModel MonoSpec MonoSpecProofs MonoModel MonoProofs MonoCmpProofs MonoDivProofs.
Import ListNotations.
Open Scope N_scope.

(** ** C17 *)
(** Import then export gives the user's exponents back, whatever the buffer held before. *)
Theorem C17_round_trip : forall nv nev iev old, (nev < nv)%nat -> user_ok nv iev -> length old = ht_evl nv nev ->
  exists ev, set_exponent_vector nv nev iev old = Some ev /\ length ev = ht_evl nv nev /\
    export_exponents nv nev ev = Some (umono iev).
Proof.
  intros nv nev iev old Hn (Hl & Hp & Hs) Ho. exists (lay nev (umono iev)). split.
  - apply set_exponent_vector_ok; assumption.
  - assert (length (umono iev) = nv) by (unfold umono; rewrite map_length; assumption).
    split; [apply lay_length; assumption|]. apply export_exponents_ok; assumption.
Qed.
Print Assumptions C17_round_trip.

(** The degree fields: without block the total degree, with a block the degrees of the two blocks. *)
Theorem C17_degrees : forall nv nev iev old ev, (nev < nv)%nat -> user_ok nv iev -> length old = ht_evl nv nev ->
  set_exponent_vector nv nev iev old = Some ev ->
  (nev = 0%nat -> ex ev 0 = mdeg (umono iev)) /\
  (nev <> 0%nat -> ex ev 0 = mdeg (firstn nev (umono iev)) /\ ex ev (nev + 1) = mdeg (skipn nev (umono iev))).
Proof.
  intros nv nev iev old ev Hn (Hl & Hp & Hs) Ho. rewrite set_exponent_vector_ok by assumption. intros [= <-].
  rewrite lay_deg0. split.
  - intros ->. reflexivity.
  - intros H. destruct (Nat.eqb_spec nev 0); [contradiction|]. split; [reflexivity|].
    apply (lay_ebl nv); auto. unfold umono. rewrite map_length. assumption.
Qed.
Print Assumptions C17_degrees.

(** Without the degree bound the statement is false: the exponent type has 16 bits and nothing checks it.
    x^65536 is imported as 1. *)
Theorem C17_unbounded_refuted : exists iev, Forall (fun x => (0 <= x)%Z) iev /\
  set_exponent_vector 2 0 iev [0;0;0] = set_exponent_vector 2 0 [0; 0]%Z [0;0;0] /\ umono iev <> umono [0; 0]%Z.
Proof. exists [65536; 0]%Z. split; [repeat constructor; lia|]. split; [vm_compute; reflexivity|vm_compute; discriminate]. Qed.
Print Assumptions C17_unbounded_refuted.

(** A zero polynomial of a basis computed with an elimination block writes one exponent more than the nv reserved
    for its single term. *)
Theorem C17_zero_polynomial_export_refuted : exists nv nev, (0 < nev < nv)%nat /\ (nv < export_zero_count nv nev)%nat.
Proof. exists 2%nat, 1%nat. vm_compute. lia. Qed.
Print Assumptions C17_zero_polynomial_export_refuted.

Example C17_ex : set_exponent_vector 3 1 [2;5;7]%Z [9;9;9;9;9] = Some [2;2;12;5;7] /\
  export_exponents 3 1 [2;2;12;5;7] = Some [2;5;7] /\ set_exponent_vector 3 0 [2;5;7]%Z [9;9;9;9] = Some [14;2;5;7].
Proof. vm_compute. auto. Qed.

(** ** C10 *)
(** The specification orders are monomial orders: irreflexive, transitive, total, compatible with multiplication,
    with 1 as least element (and well-founded, C11). *)
Theorem C10_orders : forall n, mono_order n lex_lt /\ mono_order n drl_lt /\ (forall k, mono_order n (blk_lt k)).
Proof. intros n. split; [apply mono_order_lex|]. split; [apply mono_order_drl|]. intros k. apply mono_order_blk. Qed.
Print Assumptions C10_orders.

(** The engine's comparison of two imported monomials decides the selected order: lexicographic if it is asked for,
    the block order whenever a block is given, DRL otherwise. *)
Theorem C10_comparison : forall nv nev mo ia ib olda oldb, (nev < nv)%nat ->
  user_ok nv ia -> user_ok nv ib -> length olda = ht_evl nv nev -> length oldb = ht_evl nv nev ->
  exists ea eb c, set_exponent_vector nv nev ia olda = Some ea /\ set_exponent_vector nv nev ib oldb = Some eb /\
  monomial_cmp_ev {| o_nv := nv; o_nev := nev; o_mo := mo |} ea eb = Some c /\
  cmp_spec (if (0 <? nev)%nat then blk_lt nev else if (mo =? 1)%nat then lex_lt else drl_lt) (umono ia) (umono ib) c.
Proof.
  intros nv nev mo ia ib olda oldb Hn (La & Pa & Sa) (Lb & Pb & Sb) Oa Ob.
  exists (lay nev (umono ia)), (lay nev (umono ib)).
  destruct (monomial_cmp_ev_ok {| o_nv := nv; o_nev := nev; o_mo := mo |} (umono ia) (umono ib)) as (c & Hc & Hs).
  - exact Hn. - unfold umono; rewrite map_length; exact La. - unfold umono; rewrite map_length; exact Lb.
  - exists c. split; [apply set_exponent_vector_ok; assumption|]. split; [apply set_exponent_vector_ok; assumption|].
    split; [exact Hc|exact Hs].
Qed.
Print Assumptions C10_comparison.

(** Comparing products: the comparison is preserved by the engine's own multiplication of exponent vectors. *)
Theorem C10_multiplication : forall o ma mb mc ea eb ec c c', o_ok o ->
  length ma = o_nv o -> length mb = o_nv o -> length mc = o_nv o ->
  mdeg (mmul mc ma) < 2 ^ 16 -> mdeg (mmul mc mb) < 2 ^ 16 ->
  ea = lay (o_nev o) ma -> eb = lay (o_nev o) mb -> ec = lay (o_nev o) mc ->
  monomial_cmp_ev o ea eb = Some c -> monomial_cmp_ev o (mul_ev ec ea) (mul_ev ec eb) = Some c' -> Z.sgn c = Z.sgn c'.
Proof.
  intros o ma mb mc ea eb ec c c' Ho Ha Hb Hc Sa Sb -> -> -> H1 H2.
  rewrite !(mul_ev_ok (o_nv o)) in H2 by assumption.
  destruct (monomial_cmp_ev_ok o ma mb Ho Ha Hb) as (x & Hx & (X1 & X2 & X3)).
  destruct (monomial_cmp_ev_ok o (mmul mc ma) (mmul mc mb) Ho) as (y & Hy & (Y1 & Y2 & Y3)).
  { rewrite mmul_length; congruence. } { rewrite mmul_length; congruence. }
  rewrite H1 in Hx. injection Hx as <-. rewrite H2 in Hy. injection Hy as <-.
  pose proof (o_lt_order o) as [_ _ Hto Hmul _ _].
  destruct (Hto ma mb Ha Hb) as [H|[H|H]].
  - apply X1 in H as G1. apply (Hmul ma mb mc) in H; try assumption. apply Y1 in H. lia.
  - apply X2 in H as G1. subst mb. assert (c' = 0)%Z by (apply Y2; reflexivity). lia.
  - apply X3 in H as G1. apply (Hmul mb ma mc) in H; try assumption. apply Y3 in H. lia.
Qed.
Print Assumptions C10_multiplication.

Example C10_ex : monomial_cmp_ev {| o_nv := 3; o_nev := 0; o_mo := 0 |} [3;1;1;1] [3;2;0;1] = Some (-1)%Z /\
  monomial_cmp_ev {| o_nv := 3; o_nev := 0; o_mo := 1 |} [3;1;1;1] [2;1;2;0] = Some (-1)%Z /\
  monomial_cmp_ev {| o_nv := 3; o_nev := 1; o_mo := 0 |} [1;1;0;0;0] [0;0;9;8;1] = Some 1%Z.
Proof. vm_compute. auto. Qed.

(** ** C11 *)
Theorem C11_no_infinite_descent : forall o, o_ok o ->
  ~ exists f : nat -> mono, forall i, length (f i) = o_nv o /\
     exists c, monomial_cmp_ev o (lay (o_nev o) (f (S i))) (lay (o_nev o) (f i)) = Some c /\ (c < 0)%Z.
Proof.
  intros o Ho (f & Hf). apply (no_infinite_descent (o_nv o) (o_lt o)).
  - intros a Ha. apply (mo_wf _ _ (o_lt_order o)). assumption.
  - exists f. intros i. destruct (Hf i) as [Hl (c & Hc & Hneg)]. split; [assumption|].
    destruct (Hf (S i)) as [Hl' _].
    destruct (monomial_cmp_ev_ok o (f (S i)) (f i) Ho Hl' Hl) as (c' & Hc' & (X1 & _)).
    rewrite Hc in Hc'. injection Hc' as <-. apply X1. assumption.
Qed.
Print Assumptions C11_no_infinite_descent.

Theorem C11_specification : forall n k lt, lt = lex_lt \/ lt = drl_lt \/ lt = blk_lt k ->
  ~ exists f : nat -> mono, forall i, length (f i) = n /\ lt (f (S i)) (f i).
Proof.
  intros n k lt [->|[->| ->]]; apply no_infinite_descent.
  - apply (mo_wf _ _ (mono_order_lex n)).
  - apply (mo_wf _ _ (mono_order_drl n)).
  - apply (mo_wf _ _ (mono_order_blk k n)).
Qed.
Print Assumptions C11_specification.

(* descending chains exist and are finite but not bounded in advance: below x_1 lie all powers of x_2 *)
Example C11_ex : exists c, monomial_cmp_ev {| o_nv := 2; o_nev := 0; o_mo := 1 |} (lay 0 [0; 60000]) (lay 0 [1; 0]) = Some c /\ (c < 0)%Z.
Proof. exists (-1)%Z. vm_compute. auto. Qed.

(** ** C12 *)
(** With an elimination block of nev variables, in a polynomial (list of its monomials, its leading one compared
    greater or equal to all) whose leading monomial has no block variable, no term has one. *)
Theorem C12_elimination : forall nv nev mo lm terms, (0 < nev < nv)%nat -> length lm = nv ->
  (forall t, In t terms -> length t = nv /\
     exists c, monomial_cmp_ev {| o_nv := nv; o_nev := nev; o_mo := mo |} (lay nev t) (lay nev lm) = Some c /\ (c <= 0)%Z) ->
  (forall i, (i < nev)%nat -> ex lm i = 0) ->
  forall t i, In t terms -> (i < nev)%nat -> ex t i = 0.
Proof.
  intros nv nev mo lm terms Hn Hlm Hall Hz t i Ht Hi. destruct (Hall t Ht) as (Hl & c & Hc & Hle).
  set (o := {| o_nv := nv; o_nev := nev; o_mo := mo |}) in *.
  destruct (monomial_cmp_ev_ok o t lm) as (c' & Hc' & (X1 & X2 & X3)); [unfold o_ok; cbn; lia|assumption|assumption|].
  change (o_nev o) with nev in Hc'. rewrite Hc in Hc'. injection Hc' as <-.
  assert (Hlm0 : mdeg (firstn nev lm) = 0).
  { assert (firstn nev lm = mone nev); [|rewrite H; apply mdeg_mone].
    apply ex_eq; [rewrite firstn_length, mone_length; lia|]. intros j. rewrite ex_mone, ex_firstn.
    destruct (Nat.ltb_spec j nev); [auto|reflexivity]. }
  destruct (Z.eq_dec c 0) as [E|E].
  - apply X2 in E. subst t. auto.
  - assert (Hlt : o_lt o t lm) by (apply X1; lia). unfold o_lt, sel, o in Hlt. cbn [o_nev] in Hlt.
    destruct (Nat.ltb_spec 0 nev); [|lia]. apply blk_elim in Hlt; [|assumption].
    pose proof (mdeg_zero _ Hlt i) as Hx. rewrite ex_firstn in Hx. destruct (Nat.ltb_spec i nev); [assumption|lia].
Qed.
Print Assumptions C12_elimination.

(* y^3 + y*z is free of x and all its terms are below y^3; x is above y^3 *)
Example C12_ex : monomial_cmp_ev {| o_nv := 3; o_nev := 1; o_mo := 0 |} (lay 1 [0;1;1]) (lay 1 [0;3;0]) = Some (-1)%Z /\
  monomial_cmp_ev {| o_nv := 3; o_nev := 1; o_mo := 0 |} (lay 1 [1;0;0]) (lay 1 [0;3;0]) = Some 1%Z.
Proof. vm_compute. auto. Qed.

(** ** C15 *)
(** For any thresholds, a divisor's mask is contained in the mask of its multiple. *)
Theorem C15_mask_never_rejects : forall nv nev dm a b, (nev < nv)%nat -> length a = nv -> length b = nv ->
  (ht_ndv nv * ht_bpv nv <= length dm)%nat ->
  exists sa sb, generate_short_divmask nv nev dm (lay nev a) = Some sa /\
    generate_short_divmask nv nev dm (lay nev b) = Some sb /\ (mdvd b a -> N.ldiff sb sa = 0).
Proof. exact divmask_sound. Qed.
Print Assumptions C15_mask_never_rejects.

(** The thresholds computed from any non-empty table have the length needed, and the masks fit 32 bits. *)
Theorem C15_divmask_computed : forall nv nev es, (nev < nv)%nat -> es <> [] -> Forall (fun e => length e = ht_evl nv nev) es ->
  (exists dm, calculate_divmask nv nev es = Some dm /\ length dm = (ht_ndv nv * ht_bpv nv)%nat) /\
  (ht_ndv nv * ht_bpv nv <= 32)%nat.
Proof.
  intros nv nev es Hn Hne HF. split; [apply calculate_divmask_ok; assumption|]. apply mask_bits. lia.
Qed.
Print Assumptions C15_divmask_computed.

Theorem C15_division_test : forall nv nev dm a b sa sb, (nev < nv)%nat -> length a = nv -> length b = nv ->
  (ht_ndv nv * ht_bpv nv <= length dm)%nat ->
  generate_short_divmask nv nev dm (lay nev a) = Some sa ->
  generate_short_divmask nv nev dm (lay nev b) = Some sb ->
  exists r, check_monomial_division (ht_evl nv nev) sa sb (lay nev a) (lay nev b) = Some r /\
    (r = true <-> exists c, length c = nv /\ a = mmul c b).
Proof.
  intros nv nev dm a b sa sb Hn Ha Hb Hdm H1 H2.
  destruct (check_monomial_division_ok nv nev dm a b sa sb Hn Ha Hb Hdm H1 H2) as (r & Hr & E). exists r. split; [exact Hr|].
  rewrite E, mdvd_iff by congruence. rewrite Hb. reflexivity.
Qed.
Print Assumptions C15_division_test.

Example C15_ex : exists dm, calculate_divmask 2 0 [lay 0 [3;1]; lay 0 [40;2]] = Some dm /\
  generate_short_divmask 2 0 dm (lay 0 [5;2]) <> generate_short_divmask 2 0 dm (lay 0 [3;1]) /\
  check_monomial_division 3 (2^32-1) 0 (lay 0 [5;2]) (lay 0 [3;1]) = Some true /\
  check_monomial_division 3 (2^32-1) 0 (lay 0 [5;2]) (lay 0 [3;3]) = Some false.
Proof. eexists. split; [vm_compute; reflexivity|]. vm_compute. split; [discriminate|auto]. Qed.

(** ** C16 *)
Theorem C16_lcm : forall nv nev a b etmp, (nev < nv)%nat -> length a = nv -> length b = nv -> length etmp = ht_evl nv nev ->
  mdeg (mlcm a b) < 2 ^ 16 ->
  exists m, lcm_ev nv nev (lay nev a) (lay nev b) etmp = Some (lay nev m) /\ length m = nv /\
    mdvd a m /\ mdvd b m /\ forall c, mdvd a c -> mdvd b c -> mdvd m c.
Proof.
  intros nv nev a b etmp Hn Ha Hb He Hs. exists (mlcm a b). split; [apply lcm_ev_ok; assumption|].
  split; [rewrite mlcm_length; congruence|].
  split; [apply mlcm_dvd_l; congruence|]. split; [apply mlcm_dvd_r; congruence|]. intros c. apply mlcm_least. congruence.
Qed.
Print Assumptions C16_lcm.

Theorem C16_coprime : forall nv nev a b, (nev < nv)%nat -> length a = nv -> length b = nv ->
  exists r, prime_monomials nv nev (lay nev a) (lay nev b) = Some r /\
  (r = true <-> ~ exists i, 0 < ex a i /\ 0 < ex b i).
Proof.
  intros nv nev a b Hn Ha Hb. destruct (prime_monomials_ok nv nev a b Hn Ha Hb) as (r & H & E). exists r. split; [exact H|].
  rewrite E. split.
  - intros K (i & H1 & H2). destruct (K i); lia.
  - intros K i. destruct (N.eq_dec (ex a i) 0); [auto|]. right. destruct (N.eq_dec (ex b i) 0); [assumption|].
    exfalso. apply K. exists i. lia.
Qed.
Print Assumptions C16_coprime.

Example C16_ex : lcm_ev 3 1 (lay 1 [1;2;0]) (lay 1 [0;1;4]) [7;7;7;7;7] = Some [1;1;6;2;4] /\
  prime_monomials 3 1 (lay 1 [1;2;0]) (lay 1 [0;0;4]) = Some true /\ prime_monomials 3 1 (lay 1 [1;2;0]) (lay 1 [0;1;4]) = Some false.
Proof. vm_compute. auto. Qed.

(** ** C49 *)
(** Every comparator given to a sorting routine is total, antisymmetric up to sign and transitive on the values it
    is used on: hash table entries that are exponent vectors in the layout; distinct entries (C13) for the
    pair comparator that decides ties by the index; degrees below 2^31. *)
Theorem C49_columns : forall o t, o_ok o -> ht_valid o t -> consistent (in_ht t) (hcm_cmp o t).
Proof. exact hcm_cmp_consistent. Qed.
Print Assumptions C49_columns.

Theorem C49_pairs : forall o t, o_ok o -> ht_valid o t ->
  consistent (fun s => in_ht t (sp_lcm s) /\ (0 <= sp_deg s < 2 ^ 31)%Z) (spair_cmp o t) /\
  (NoDup (t_ev t) -> consistent (fun s => in_ht t (sp_lcm s)) (spair_cmp_update o t)).
Proof.
  intros o t Ho Ht. split; [|intros Hnd; exact (spair_cmp_update_consistent o t Ho Ht Hnd)].
  assert (Hw : forall c, consistent (sp_ok t) c -> consistent (fun s => in_ht t (sp_lcm s) /\ (0 <= sp_deg s < 2 ^ 31)%Z) c).
  { intros c [H1 H2 H3]. constructor.
    - intros a b [Ha _] [Hb _]. auto.
    - intros a b x y [Ha _] [Hb _]. apply H2; assumption.
    - intros a b d x y z [Ha _] [Hb _] [Hd _]. apply H3; assumption. }
  unfold spair_cmp, sel. destruct (0 <? o_nev o)%nat; [exact (spair_cmp_be_consistent o t Ho Ht)|].
  destruct (o_mo o =? 1)%nat; apply Hw; [apply spair_cmp_deglex_consistent|apply spair_cmp_drl_consistent]; assumption.
Qed.
Print Assumptions C49_pairs.

Theorem C49_input : forall o, o_ok o ->
  consistent (vlay o) (initial_input_cmp o) /\ consistent (vlay o) (initial_gens_cmp o).
Proof.
  intros o Ho. split.
  - eapply good_consistent; [apply mcz_good; exact Ho|]. intros a b (ma & Ha & ->) (mb & Hb & ->).
    destruct (variants_ok o ma mb Ho Ha Hb) as (c & H1 & H2 & _). unfold mcz. rewrite H1, H2. eauto.
  - destruct ((o_nev o =? 0) && (o_mo o =? 1))%nat eqn:E.
    + eapply good_consistent; [apply mcz_good; exact Ho|]. intros a b (ma & Ha & ->) (mb & Hb & ->).
      destruct (variants_ok o ma mb Ho Ha Hb) as (c & H1 & _ & _ & H4). rewrite E in H4. unfold mcz. rewrite H1, H4. eauto.
    + eapply good_consistent; [apply good_opp, mcz_good; exact Ho|]. intros a b (ma & Ha & ->) (mb & Hb & ->).
      destruct (variants_ok o ma mb Ho Ha Hb) as (c & H1 & _ & _ & H4). rewrite E in H4. unfold mcz. rewrite H1, H4. eauto.
Qed.
Print Assumptions C49_input.

Theorem C49_rows : consistent row_ok matrix_row_cmp_decreasing /\ consistent row_ok matrix_row_cmp_increasing /\
  consistent row_ok matrix_row_mult_cmp_increasing /\ consistent (fun x => x < 2 ^ 31) gens_cmp.
Proof.
  split; [apply matrix_row_cmp_decreasing_consistent|]. split; [apply matrix_row_cmp_increasing_consistent|].
  split; [apply matrix_row_mult_cmp_increasing_consistent|apply gens_cmp_consistent].
Qed.
Print Assumptions C49_rows.

(** The column order lists larger monomials first inside one idx class; terms of an input polynomial are sorted with
    the larger monomial first for DRL and block orders ... *)
Theorem C49_decreasing : forall o a b, o_ok o -> length a = o_nv o -> length b = o_nv o ->
  (o_nev o <> 0 \/ o_mo o <> 1)%nat ->
  exists c, initial_gens_cmp o (lay (o_nev o) a) (lay (o_nev o) b) = Some c /\ ((c < 0)%Z <-> o_lt o b a).
Proof.
  intros o a b Ho Ha Hb Hs. destruct (variants_ok o a b Ho Ha Hb) as (c & H1 & _ & _ & H4).
  assert (E : ((o_nev o =? 0) && (o_mo o =? 1))%nat = false).
  { destruct (Nat.eqb_spec (o_nev o) 0); destruct (Nat.eqb_spec (o_mo o) 1); cbn; auto; lia. }
  rewrite E in H4. exists (- c)%Z. split; [exact H4|].
  destruct (monomial_cmp_ev_ok o a b Ho Ha Hb) as (c' & H1' & (_ & _ & X3)). rewrite H1 in H1'. injection H1' as <-.
  rewrite <- X3. lia.
Qed.
Print Assumptions C49_decreasing.

(** ... but with the smaller monomial first for the lexicographic order (the comparator is not reversed), so that the
    entry taken as leading term of an input polynomial is its smallest one. *)
Theorem C49_lex_terms_decreasing_refuted : exists o a b, o_ok o /\ o_mo o = 1%nat /\ length a = o_nv o /\ length b = o_nv o /\
  lex_lt a b /\ exists c, initial_gens_cmp o (lay (o_nev o) a) (lay (o_nev o) b) = Some c /\ (c < 0)%Z.
Proof.
  exists {| o_nv := 2; o_nev := 0; o_mo := 1 |}, [0;1], [1;0]. split; [unfold o_ok; cbn; lia|].
  split; [reflexivity|]. split; [reflexivity|]. split; [reflexivity|]. split.
  - exists 0%nat. split; [vm_compute; reflexivity|]. intros; lia.
  - exists (-1)%Z. vm_compute. auto.
Qed.
Print Assumptions C49_lex_terms_decreasing_refuted.

(** Without the degree bound the block pair comparator is not antisymmetric (its unsigned difference is returned as a
    signed value), nor is the comparator of generator indices transitive. *)
Theorem C49_unbounded_refuted :
  (exists a b, Z.sgn (to_int32 ((a - b) mod 2 ^ 32)) <> - Z.sgn (to_int32 ((b - a) mod 2 ^ 32)))%Z /\
  (exists a b c x y z, gens_cmp a b = Some x /\ gens_cmp b c = Some y /\ gens_cmp a c = Some z /\ (x < 0 /\ y < 0 /\ 0 < z)%Z).
Proof.
  split.
  - exists 2147483648%Z, 0%Z. vm_compute. discriminate.
  - exists 0, 2000000000, 4000000000. do 3 eexists. split; [vm_compute; reflexivity|]. split; [vm_compute; reflexivity|].
    split; [vm_compute; reflexivity|]. lia.
Qed.
Print Assumptions C49_unbounded_refuted.

Example C49_ex : let o := {| o_nv := 2; o_nev := 0; o_mo := 0 |} in
  let t := {| t_ev := [lay 0 [0;0]; lay 0 [1;1]; lay 0 [2;0]]; t_idx := [0;1;1] |} in
  ht_valid o t /\ hcm_cmp o t 1 2 = Some 1%Z /\ hcm_cmp o t 0 2 = Some 1%Z /\
  spair_cmp_update o t {| sp_lcm := 1; sp_gen1 := 0; sp_gen2 := 3; sp_deg := 2 |} {| sp_lcm := 2; sp_gen1 := 1; sp_gen2 := 3; sp_deg := 2 |} = Some (-1)%Z.
Proof.
  cbv zeta. split; [|vm_compute; auto]. split; [|reflexivity].
  repeat constructor; cbn [o_nev o_nv]; [exists [0;0]|exists [1;1]|exists [2;0]]; auto.
Qed.
