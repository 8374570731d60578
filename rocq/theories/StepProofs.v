(** The computation modulo one prime: proofs. *)
From Coq Require Import ZArith NArith Arith List Bool Lia Sorted Znumtheory.
From Verif Require Import ModInvModel LinSpec MonoSpec MonoSpecProofs MonoModel MonoCmpProofs HilbSpec HilbModel HilbLoopProofs HilbProps GbSpec GbProofs GbIdeal F4Model UpdProps F4Rows RoundProofs FinalProofs F4Props.
From Verif Require Import FpSpec FglmSpec NmodModel FpProofs BmModel BmProofs BmProps FglmModel MatVecProofs SeqProofs HankelProofs ShapeProofs ParamProofs FglmCore FglmProps BuildModel StairProofs BuildProofs BasisProofs LinTabProofs BuildProps NfModel NfProps StepSpec StepModel.
Import ListNotations.
Open Scope nat_scope.
Notation xp := FglmSpec.xpow.

(** * Staircases *)
Lemma mb_more nv lms D k r : forall f deg basis new ind, mb_loop f nv lms D deg basis new ind = HilbModel.Ok r -> mb_loop (f + k) nv lms D deg basis new ind = HilbModel.Ok r.
Proof.
  induction f as [|f IH]; intros deg basis new ind H; [discriminate|]. cbn [mb_loop Nat.add] in *.
  destruct ((0 <? length new)%nat && _); [|exact H].
  destruct (update_indices _ _ _ _ _); [|discriminate]. destruct (sum l); [|discriminate]. destruct (generate_new_elts_basis _ _ _ _ _ _); [auto|discriminate].
Qed.
Lemma upto_more nv lms D f k r : monomial_basis_upto f nv lms D = HilbModel.Ok r -> monomial_basis_upto (f + k) nv lms D = HilbModel.Ok r.
Proof.
  unfold monomial_basis_upto. destruct (is_divisible_lexp _ _ _) as [[]|]; auto.
  destruct (sum _); auto. destruct (generate_new_elts_basis _ _ _ _ _ _); auto.
  destruct (mb_loop f _ _ _ _ _ _ _) eqn:E; try discriminate. intros H. rewrite (mb_more _ _ _ k _ _ _ _ _ _ E). exact H.
Qed.
Lemma finite_lists nv lms : (forall l, In l lms -> length l = nv) -> finitely_many (standard nv lms) -> exists L, lists (standard nv lms) L.
Proof.
  intros HL [L H]. set (std := fun m : mono => (length m =? nv) && forallb (fun l => negb (mdvdb l m)) lms).
  assert (Hstd : forall m, std m = true <-> standard nv lms m).
  { intros m. unfold std, standard. rewrite Bool.andb_true_iff, Nat.eqb_eq, forallb_forall. split; intros [A B]; (split; [exact A|]); intros l Hl.
    - specialize (B l Hl). rewrite Bool.negb_true_iff in B. intros C. apply mdvdb_iff in C; [congruence|rewrite (HL l Hl); lia].
    - rewrite Bool.negb_true_iff. destruct (mdvdb l m) eqn:E; [|reflexivity]. exfalso. apply (B l Hl). apply mdvdb_iff in E; [exact E|rewrite (HL l Hl); lia]. }
  exists (nodup mono_dec (filter std L)). split; [apply NoDup_nodup|]. intros m. rewrite nodup_In, filter_In, Hstd. split; [tauto|]. intros Hm. split; [apply H|]; exact Hm.
Qed.
(** the staircase has few elements, if it is finite *)
Definition few (nv : nat) (lms : list mono) : Prop := forall L, lists (standard nv lms) L -> (Z.of_nat (length L) <= 65536)%Z /\ (N.of_nat (nv * length L) <= i32_max)%N.
Lemma basis_run nv lms : 1 <= nv -> lms_ok nv lms -> finitely_many (standard nv lms) -> few nv lms -> standard nv lms (mone nv) ->
  exists lmb, StronglySorted drl_lt lmb /\ (forall m, In m lmb <-> standard nv lms m) /\ lmb <> [] /\ (Z.of_nat (length lmb) <= 65536)%Z /\
    forall fuel, monomial_basis fuel nv lms = HilbModel.Ok (Some lmb) \/ (monomial_basis fuel nv lms = HilbModel.NoFuel /\ fuel <= length lmb).
Proof.
  intros NV LK Fin Few S1. pose proof (lms_ok_len _ _ LK) as Ll. rewrite Forall_forall in Ll. destruct (finite_lists nv lms Ll Fin) as (L & HL). destruct (Few L HL) as [F1 F2].
  assert (K : forall fuel, length L < fuel -> exists b, monomial_basis fuel nv lms = HilbModel.Ok (Some b) /\ (forall m, In m b <-> standard nv lms m) /\ StronglySorted drl_lt b /\ length b = length L).
  { intros fuel Hf. destruct (C24_staircase nv lms L NV LK HL F2 fuel Hf) as ([b|] & E & P); [exists b; split; [exact E|exact P]|exfalso; exact (P _ S1)]. }
  destruct (K (S (length L)) ltac:(lia)) as (b & E & B1 & B2 & B3). exists b. split; [exact B2|]. split; [exact B1|]. split; [intros ->; exact (proj2 (B1 _) S1)|]. split; [rewrite B3; exact F1|].
  intros fuel. destruct (monomial_basis fuel nv lms) as [r| |] eqn:Ef.
  - left. apply (upto_more nv lms None fuel (S (length L))) in Ef. apply (upto_more nv lms None (S (length L)) fuel) in E. rewrite (Nat.add_comm _ fuel) in E. unfold monomial_basis in *. rewrite E in Ef. injection Ef as <-. reflexivity.
  - exfalso. exact (C25_buffer nv lms L NV LK HL F2 fuel Ef).
  - right. split; [reflexivity|]. rewrite B3. destruct (le_lt_dec fuel (length L)) as [?|Hf]; [assumption|]. destruct (K fuel Hf) as (b' & E' & _). unfold monomial_basis in *. rewrite Ef in E'. discriminate.
Qed.
(** not of dimension zero: all the powers of some variable are standard *)
Lemma free_power nv lms : (forall l, In l lms -> length l = nv) -> ~ finitely_many (standard nv lms) ->
  exists k, k < nv /\ forall n, standard nv lms (xp nv k n).
Proof.
  intros HL NF. set (pk := fun k => existsb (fun l : mono => forallb (fun j => (j =? k) || (ex l j =? 0)%N) (seq 0 nv)) lms).
  destruct (forallb pk (seq 0 nv)) eqn:E.
  - exfalso. apply NF. destruct (degs_bounded lms) as [D HD]. exists (cube nv (N.to_nat D)). intros m [Hml Hm]. apply in_cube; [exact Hml|]. intros i. rewrite N2Nat.id.
    destruct (Nat.lt_ge_cases i nv) as [Hi|Hi]; [|rewrite ex_overflow by lia; apply N.le_0_l].
    rewrite forallb_forall in E. specialize (E i ltac:(apply in_seq; lia)). apply existsb_exists in E as (l & Hl & E). rewrite forallb_forall in E.
    destruct (N.le_gt_cases (ex m i) D) as [|Hgt]; [assumption|]. exfalso. apply (Hm l Hl). intros j. destruct (Nat.eq_dec j i) as [->|Hj]; [specialize (HD l Hl); pose proof (ex_le_mdeg l i); lia|].
    destruct (Nat.lt_ge_cases j nv) as [Hjn|Hjn]; [|rewrite ex_overflow by (rewrite (HL l Hl); exact Hjn); apply N.le_0_l]. specialize (E j ltac:(apply in_seq; lia)). apply Bool.orb_true_iff in E as [E|E]; [apply Nat.eqb_eq in E; contradiction|]. apply N.eqb_eq in E. rewrite E. apply N.le_0_l.
  - assert (X : exists k, In k (seq 0 nv) /\ pk k = false).
    { revert E. generalize pk. intros q E. induction (seq 0 nv) as [|a l IH]; [discriminate|]. cbn [forallb] in E. destruct (q a) eqn:Ea; [destruct (IH E) as (k & Hk & Ek); exists k; split; [right; exact Hk|exact Ek]|exists a; split; [left; reflexivity|exact Ea]]. }
    destruct X as (k & Hk & Ek). apply in_seq in Hk. exists k. split; [lia|]. intros n. split; [apply map_length_seq || (unfold FglmSpec.xpow; rewrite map_length, seq_length; reflexivity)|].
    intros l Hl Hd. assert (C : pk k = true); [|congruence]. apply existsb_exists. exists l. split; [exact Hl|]. apply forallb_forall. intros j Hj. apply in_seq in Hj. destruct (Nat.eqb_spec j k) as [_|N]; [reflexivity|]. cbn [orb]. apply N.eqb_eq. specialize (Hd j). unfold ex in Hd at 2. unfold FglmSpec.xpow in Hd. rewrite nth_map_seq in Hd by lia. destruct (Nat.eqb_spec j k); [contradiction|]. lia.
Qed.

(** * The answer for a reduced basis *)
Definition fglm_spec (nv : nat) (p : Z) (G : pf -> Prop) (l : list mono) (v : list Z) (r : fglm_res) : Prop :=
  match r with
  | Param elim cs => parametrises nv p G (length l) elim cs /\ squarefree p elim /\ generates_last nv p G elim
  | Special => exists V, monic_of_degree p V (length l) /\ squarefree p V /\ generates_last nv p G V
  | NotShape => exists M, mult_matrix nv p G (length l) (fun i => cf [(1%Z, nth i l [])]) M /\
      forall V, monic_of_degree p V (length l) -> minimal_polynomial p V (fun i => mpow (length l) M (fun j => nth j v 0%Z) i 0) -> ~ squarefree p V
  | TooLarge => (1518500213 <= p)%Z
  | Singular => False
  end.
Definition step_spec (nv : nat) (p : Z) (G : pf -> Prop) (v : nat -> list Z) (r : step_res) : Prop :=
  match r with
  | Empty => unit_ideal nv p G
  | Positive => ~ unit_ideal nv p G /\ exists k, free_variable nv p G k
  | Unstable => ~ unit_ideal nv p G /\ exists l, quotient_basis nv p G l
  | Done r => ~ unit_ideal nv p G /\ exists l, quotient_basis nv p G l /\ fglm_spec nv p G l (v (length l)) r
  end.

Lemma filter_negb_len {A} (f : A -> bool) l : length (filter f l) + length (filter (fun x => negb (f x)) l) = length l.
Proof. induction l as [|x l IH]; [reflexivity|]. cbn [filter]. destruct (f x); cbn [negb length]; lia. Qed.
Lemma filter_len_le {A} (f : A -> bool) l : length (filter f l) <= length l.
Proof. pose proof (filter_negb_len f l). lia. Qed.
Lemma var_basis_ext nv lin lin' b : (forall k, k < nv -> lin k = lin' k) -> var_basis nv lin b -> var_basis nv lin' b.
Proof.
  intros E H q m Hq L. rewrite <- E in L by lia. rewrite <- (H q m Hq L). f_equal. unfold var_place. do 2 f_equal. apply filter_ext_in. intros k Hk. apply in_seq in Hk. rewrite E by lia. reflexivity.
Qed.

Section Step.
Variables (nv : nat) (p : Z) (G : list poly).
Hypothesis NV : 1 <= nv.
Hypothesis Hp : prime p.
Hypothesis HG : reduced_gb nv p G.
Notation lms := (leads G).
Notation I := (ideal nv p (pfs G)).
Lemma P2' : (2 <= p)%Z.
Proof. destruct Hp; lia. Qed.
Lemma mone_min (m : mono) : length m = nv -> ~ drl_lt m (mone nv).
Proof.
  intros Hm L. destruct (mono_dec m (mone nv)) as [->|N]; [exact (drl_irrefl _ L)|]. pose proof (drl_one nv m Hm N) as L2. exact (drl_irrefl _ (drl_trans _ _ _ L L2)).
Qed.
Lemma mdvd_mone (l : mono) : length l = nv -> mdvd l (mone nv) -> l = mone nv.
Proof.
  intros Hl Hd. apply (mono_ext nv); [exact Hl|apply mone_length|]. intros i _. specialize (Hd i). rewrite ex_mone in *. lia.
Qed.
Lemma single_yes : single_constant nv lms = true -> unit_ideal nv p (pfs G).
Proof.
  unfold single_constant, leads. destruct G as [|g [|g' G']] eqn:EG; cbn [map]; [discriminate| |discriminate]. intros E. rewrite <- EG in *. assert (Hg : In g G) by (rewrite EG; left; reflexivity).
  destruct (el_shape nv p G HG g Hg) as (tail & Eg & _ & HT & Ll). assert (lead g = mone nv).
  { apply (mono_ext nv); [exact Ll|apply mone_length|]. intros i Hi. rewrite forallb_forall in E. specialize (E i ltac:(apply in_seq; lia)). apply N.eqb_eq in E. rewrite E, ex_mone. reflexivity. }
  assert (tail = []). { destruct tail as [|t tail]; [reflexivity|]. exfalso. destruct (HT t (or_introl eq_refl)) as (_ & Lt & L). rewrite H in L. exact (mone_min _ Lt L). }
  rewrite H0, H in Eg. unfold unit_ideal. rewrite <- Eg. apply ideal_gen. exists g. split; [exact Hg|reflexivity].
Qed.
Lemma single_no : single_constant nv lms = false -> ~ In (mone nv) lms.
Proof.
  intros E C. destruct (leads_minimal nv p G P2' HG) as [ND MI]. assert (A : forall l, In l lms -> l = mone nv). { intros l Hl. symmetry. apply (MI _ _ C Hl). intros i. rewrite ex_mone. lia. }
  destruct lms as [|a [|b r]] eqn:El; [destruct C| |].
  - cbn [single_constant] in E. rewrite (A a (or_introl eq_refl)) in E. assert (forallb (fun i => (ex (mone nv) i =? 0)%N) (seq 0 nv) = true) by (apply forallb_forall; intros i _; rewrite ex_mone; reflexivity). congruence.
  - inversion ND as [|? ? N1 _]. apply N1. rewrite (A a (or_introl eq_refl)), <- (A b (or_intror (or_introl eq_refl))). left. reflexivity.
Qed.
Lemma one_standard : single_constant nv lms = false -> standard nv lms (mone nv).
Proof.
  intros E. split; [apply mone_length|]. intros l Hl Hd. apply (single_no E). rewrite <- (mdvd_mone l (leads_len nv p G P2' HG l Hl) Hd). exact Hl.
Qed.
Lemma not_unit : single_constant nv lms = false -> ~ unit_ideal nv p (pfs G).
Proof.
  intros E C. apply (one_nz p P2'). pose proof (std_zero nv p G P2' HG [(1%Z, mone nv)]) as K. specialize (K ltac:(intros t [<-|[]]; exact (one_standard E)) C (mone nv) (mone_length nv)). cbn [cf fst snd] in K. destruct (mono_dec (mone nv) (mone nv)); [|contradiction]. exact K.
Qed.
Lemma xp_inj k i j : k < nv -> xp nv k i = xp nv k j -> i = j.
Proof.
  intros Hk E. assert (E' : nth k (xp nv k i) 0%N = nth k (xp nv k j) 0%N) by (rewrite E; reflexivity). unfold FglmSpec.xpow in E'. rewrite !nth_map_seq in E' by exact Hk. rewrite Nat.eqb_refl in E'. lia.
Qed.
Lemma free_ok k : k < nv -> (forall n, standard nv lms (xp nv k n)) -> free_variable nv p (pfs G) k.
Proof.
  intros Hk St. split; [exact Hk|]. intros Q HI i. destruct (le_lt_dec (length Q) i) as [L|L]; [rewrite nth_overflow by exact L; reflexivity|].
  set (h := map (fun j => (nth j Q 0%Z, xp nv k j)) (seq 0 (length Q))) in *. assert (K : eqp p (cf h (xp nv k i)) 0%Z).
  { apply (std_zero nv p G P2' HG h); [|exact HI|apply (St i)]. intros t Ht. apply in_map_iff in Ht as (j & <- & _). apply St. }
  assert (N : NoDup (map snd h)). { unfold h. rewrite map_map. cbn [snd]. apply NoDup_map_on; [|apply seq_NoDup]. intros x y _ _ E. exact (xp_inj k x y Hk E). }
  assert (T : In (nth i Q 0%Z, xp nv k i) h) by (apply (in_map (fun j => (nth j Q 0%Z, xp nv k j))); apply in_seq; lia). rewrite (cf_at h _ N T : cf h (xp nv k i) = _) in K. exact K.
Qed.
Lemma basis_ok lmb : StronglySorted drl_lt lmb -> (forall m, In m lmb <-> standard nv lms m) -> quotient_basis nv p (pfs G) lmb.
Proof.
  intros BS BI. destruct (C59_basis nv p G lmb P2' HG BS BI) as [A B]. split; [|split; [exact A|exact B]]. apply Forall_forall. intros m Hm. apply BI in Hm. apply Hm.
Qed.
Section Fg.
Variables (lmb : list mono) (k : kernel) (sqf : list Z -> bool) (sqpart : list Z -> list Z) (sq : nat -> nat -> Z) (m : sp_mat) (M : mat) (v old : list Z) (lv : list nat) (eqs : list (list Z)).
Hypothesis BS : StronglySorted drl_lt lmb.
Hypothesis BI : forall m, In m lmb <-> standard nv lms m.
Hypothesis D1 : lmb <> [].
Hypothesis N2 : p <> 2%Z.
Hypothesis SQ : sqf_contract p sqf sqpart.
Hypothesis EC : m_ncols m = length lmb.
Hypothesis R : represents p m M.
Notation b := (fun i => cf [(1%Z, nth i lmb [])]).
Hypothesis MM : mult_matrix nv p (pfs G) (length lmb) b M.
Hypothesis LV : forall k, k < nv -> (nth k lv 0 =? 0) = negb (lead_var nv lms k).
Hypothesis EQ : Forall2 (linear_row nv p (pfs G)) (filter (lead_var nv lms) (seq 0 nv)) eqs.
Hypothesis HV : holds_vec p (length lmb) v (fun j => nth j v 0%Z).
Hypothesis HO : length old = length lmb.
Notation nl := (length (filter (lead_var nv lms) (seq 0 nv))).
Notation lin := (fun k => negb (nth k lv 0 =? 0)).
Lemma lin_eq q : q < nv -> lead_var nv lms q = lin q.
Proof. intros Hq. cbv beta. rewrite (LV q Hq), Bool.negb_involutive. reflexivity. Qed.
Lemma room : 1 + (nv - nl) <= length lmb.
Proof.
  pose proof (low_room nv lms lmb NV (leads_len nv p G P2' HG) BS BI (len1 lmb D1)) as K. pose proof (filter_negb_len (lead_var nv lms) (seq 0 nv)) as F. rewrite seq_length in F. lia.
Qed.
Lemma run_one : length lmb = 1 -> (p < 1518500213)%Z -> exists elim cs, fglm k p sqf sqpart m sq nv (nv - nl) lin eqs v old = Some (Param elim cs) /\
  fglm_spec nv p (pfs G) lmb v (Param elim cs).
Proof.
  intros E1 PU. pose proof room as RM. pose proof (filter_negb_len (lead_var nv lms) (seq 0 nv)) as F. rewrite seq_length in F.
  assert (A : forall q, q < nv -> lead_var nv lms q = true).
  { intros q Hq. destruct (lead_var nv lms q) eqn:E; [reflexivity|]. exfalso. assert (In q (filter (fun x => negb (lead_var nv lms x)) (seq 0 nv))) by (apply filter_In; rewrite E; split; [apply in_seq; lia|reflexivity]). destruct (filter (fun x => negb (lead_var nv lms x)) (seq 0 nv)); [destruct H|cbn [length] in F; lia]. }
  rewrite filt_all in EQ by (intros q Hq; apply in_seq in Hq; apply A; lia). replace (nv - nl) with 0 by lia.
  destruct (C58_one k p sqf sqpart m sq nv lin eqs v old M (pfs G) (fun j => nth j v 0%Z) Hp N2 PU SQ R NV ltac:(congruence)) as (elim & cs & E & P).
  - intros q Hq. rewrite <- lin_eq by lia. apply A. lia.
  - exact EQ.
  - congruence.
  - rewrite <- E1. exact HV.
  - exists elim, cs. split; [exact E|]. cbn [fglm_spec]. rewrite E1. split; [exact P|]. destruct P as (L1 & T1 & R1 & I1 & _). assert (ME : monic_of_degree p elim 1) by (split; [exact L1|]; split; assumption). split; [apply (sqf_degree_one p elim Hp ME)|].
    destruct (nf_of_monic p Hp _ _ ME) as [Ne De]. intros Q. split.
    + intros HQ. destruct (ndivrem_ok p Hp (norm p Q) elim 1 (nf_norm p Hp Q) Ne De) as (q & r & _ & ED & DR & _ & Nr). apply (nf_dlt p Hp r 1 Nr) in DR.
      assert (IR : I (uni_at nv (nv - 1) r)).
      { eapply I_eq; [apply lspan_sub; [exact HQ|apply (uni_mul nv p (pfs G) NV q elim I1)]|]. intros x _. cbv beta. rewrite <- (uni_peq nv p NV (norm p Q) Q x (norm_peq p Hp Q)), (uni_peq nv p NV _ _ x ED), (uni_padd nv NV). exists 0%Z. ring. }
      assert (r = []) as ->.
      { destruct r as [|c [|c' r]]; [reflexivity| |cbn [length] in DR; lia]. exfalso. pose proof (proj1 (proj2 (basis_ok lmb BS BI)) (fun _ => c)) as K. rewrite E1 in K. cbn [sumn] in K.
        assert (B0 : nth 0 lmb [] = mone nv). { destruct lmb as [|x l] eqn:El; [contradiction|]. destruct l; [|discriminate]. assert (S0 : standard nv lms x) by (apply BI; left; reflexivity). assert (In (mone nv) [x]) by (apply BI; apply (one_std nv lms [x] NV BI ltac:(cbn; lia))). destruct H as [<-|[]]. reflexivity. }
        assert (C0 : eqp p c 0%Z). { apply K with (j := 0); [|lia]. eapply I_eq; [exact IR|]. intros x _. rewrite B0. unfold uni_at. cbn [length seq map nth]. exists 0%Z. cbn [cf fst snd]. replace (xp nv (nv - 1) 0) with (mone nv); [destruct (mono_dec (mone nv) x); ring|]. apply (mono_ext nv); [apply mone_length|unfold FglmSpec.xpow; rewrite map_length, seq_length; reflexivity|]. intros i Hi. rewrite ex_mone. unfold ex, FglmSpec.xpow. rewrite nth_map_seq by exact Hi. destruct (i =? nv - 1); reflexivity. }
        pose proof (nf_range p Hp _ Nr c (or_introl eq_refl)) as Rc. pose proof (nf_last p Hp _ Nr) as NL. cbn [last] in NL. apply NL. destruct C0 as [z Cz]. assert (z = 0)%Z by nia. subst z. lia. }
      exists q. rewrite <- (norm_peq p Hp Q). rewrite ED. intros i. rewrite pc_padd, pc_nil. exists 0%Z. ring.
    + intros (c & Ec). eapply I_eq; [apply (uni_mul nv p (pfs G) NV c elim I1)|]. intros x _. apply (uni_peq nv p NV). exact Ec.
Qed.
Lemma nl_le : nl <= nv.
Proof. pose proof (filter_len_le (lead_var nv lms) (seq 0 nv)). rewrite seq_length in H. exact H. Qed.
Lemma last_split {A} (f : nat -> A) (g : nat -> bool) : filter g (seq 0 nv) = filter g (seq 0 (nv - 1)) ++ (if g (nv - 1) then [nv - 1] else []).
Proof. replace (seq 0 nv) with (seq 0 (nv - 1) ++ [nv - 1]); [rewrite filter_app; reflexivity|]. replace (seq 0 nv) with (seq 0 (S (nv - 1))) by (f_equal; lia). rewrite seq_S. reflexivity. Qed.
Lemma run_many : 2 <= length lmb -> (p < 1518500213)%Z -> exists r, fglm k p sqf sqpart m sq nv (nv - nl) lin eqs v old = Some r /\ fglm_spec nv p (pfs G) lmb v r.
Proof.
  intros D2 PU. pose proof room as RM. pose proof nl_le as NL. pose proof (filter_negb_len (lead_var nv lms) (seq 0 nv)) as F. rewrite seq_length in F.
  pose proof (proj1 (proj2 (basis_ok lmb BS BI))) as IN. assert (HV' : holds_vec p (m_ncols m) v (fun j => nth j v 0%Z)) by (rewrite EC; exact HV). assert (HO' : length old = m_ncols m) by congruence.
  assert (MM' : mult_matrix nv p (pfs G) (m_ncols m) b M) by (rewrite EC; exact MM). assert (IN' : independent nv p (pfs G) (m_ncols m) b) by (rewrite EC; exact IN).
  destruct (lead_var nv lms (nv - 1)) eqn:EL.
  - (* the last variable is a leading monomial *)
    assert (EQ' := EQ). rewrite (last_split (fun x => x) (lead_var nv lms)), EL in EQ'. apply Forall2_app_inv_l in EQ' as (e1 & e2 & _ & E2 & _). inversion E2 as [|x eq ? ? LR _]. subst x.
    assert (B1 : 1 <= nv - nl).
    { destruct (nv - nl) as [|z] eqn:Z0; [|lia]. exfalso. assert (A : forall q, q < nv -> lead_var nv lms q = true).
      { intros q Hq. destruct (lead_var nv lms q) eqn:E; [reflexivity|]. exfalso. assert (In q (filter (fun x => negb (lead_var nv lms x)) (seq 0 nv))) by (apply filter_In; rewrite E; split; [apply in_seq; lia|reflexivity]). destruct (filter (fun x => negb (lead_var nv lms x)) (seq 0 nv)); [contradiction|cbn [length] in F; lia]. }
      assert (U : forall x, In x lmb -> x = mone nv).
      { intros x Hx. apply BI in Hx as [Lx Kx]. apply (mono_ext nv); [exact Lx|apply mone_length|]. intros i Hi. rewrite ex_mone. destruct (N.eq_dec (ex x i) 0) as [|NZ]; [assumption|]. exfalso. apply (Kx (xp nv i 1)); [apply lead_var_iff; apply A; exact Hi|]. intros j. unfold ex at 1. destruct (Nat.lt_ge_cases j nv) as [Hj|Hj]; [unfold FglmSpec.xpow; rewrite nth_map_seq by exact Hj; destruct (Nat.eqb_spec j i) as [->|]; lia|]. rewrite nth_overflow by (unfold FglmSpec.xpow; rewrite map_length, seq_length; exact Hj). lia. }
      destruct lmb as [|x [|y l0]] eqn:El; [contradiction|cbn [length] in D2; lia|]. pose proof (U x (or_introl eq_refl)). pose proof (U y (or_intror (or_introl eq_refl))). inversion BS as [|? ? _ FA]. inversion FA as [|? ? C _]. subst x y. exact (drl_irrefl _ C). }
    exists NotShape. split.
    + apply (C58_scalar k p sqf sqpart m sq nv (nv - nl) lin eqs v old M (pfs G) b (fun j => nth j v 0%Z) eq Hp N2 PU SQ R NV ltac:(lia) MM' IN'); try assumption; try lia.
      intros j Hj. exists (nth j lmb []). split; [|reflexivity]. apply BI. apply nth_In. lia.
    + cbn [fglm_spec]. exists M. split; [exact MM|]. intros V MV Mn. exfalso. pose proof (scalar_ann p nv (length lmb) M (pfs G) b (fun j => nth j v 0%Z) eq Hp NV ltac:(lia) MM IN) as An.
      specialize (An ltac:(intros j Hj; exists (nth j lmb []); split; [apply BI; apply nth_In; lia|reflexivity]) LR). pose proof (deg_one_dvd p V (length lmb) (nth nv eq 0%Z) Hp MV (proj2 Mn _ An)). lia.
  - assert (EF : filter lin (seq 0 (nv - 1)) = filter (lead_var nv lms) (seq 0 nv)).
    { rewrite (last_split (fun x => x) (lead_var nv lms)), EL, app_nil_r. apply filter_ext_in. intros q Hq. apply in_seq in Hq. symmetry. apply lin_eq. lia. }
    assert (EN : length (filter (fun q => negb (lin q)) (seq 0 (nv - 1))) < nv - nl).
    { rewrite (filter_ext_in (fun q => negb (lin q)) (fun q => negb (lead_var nv lms q)) (seq 0 (nv - 1))) by (intros q Hq; apply in_seq in Hq; rewrite lin_eq by lia; reflexivity). pose proof (last_split (fun x => x) (fun q => negb (lead_var nv lms q))) as LS. cbv beta in LS. rewrite EL in LS. cbn [negb] in LS. rewrite LS, app_length in F. cbn [length] in F. lia. }
    pose proof (var_basis_ext nv _ lin b lin_eq (place_ok nv lms lmb NV (leads_len nv p G P2' HG) BS BI (len1 lmb D1) EL)) as VB.
    assert (EQ' : Forall2 (linear_row nv p (pfs G)) (filter lin (seq 0 (nv - 1))) eqs) by (rewrite EF; exact EQ).
    destruct (C58_param k p sqf sqpart m sq nv (nv - nl) lin eqs v old M (pfs G) b (fun j => nth j v 0%Z) Hp N2 SQ R NV ltac:(lia) MM' VB EN ltac:(lia) ltac:(lia) EQ' HO' HV') as [(C & _)|[(C & W)|(V & MV & Mn & SF & C)]]; [lia| |].
    + exists NotShape. split; [exact C|]. cbn [fglm_spec]. exists M. split; [exact MM|]. rewrite EC in W. exact W.
    + assert (GL : generates_last nv p (pfs G) V).
      { rewrite EC in MV, Mn. remember (length lmb) as DD eqn:ED. destruct DD as [|d]; [lia|]. intros Q. split.
        - apply (uni_min nv p (pfs G) NV d b M MM _ V Q Mn IN).
        - intros (c & Ec). eapply I_eq; [apply (uni_mul nv p (pfs G) NV c V); exact (elim_in nv p (pfs G) Hp NV d b M _ MM V MV Mn)|]. intros x _. apply (uni_peq nv p NV). exact Ec. }
      destruct C as [C|(cs & C & P)]; rewrite C; [exists Special|exists (Param V cs)]; (split; [reflexivity|]); cbn [fglm_spec]; rewrite EC in MV.
      * exists V. split; [exact MV|]. split; [exact SF|exact GL].
      * rewrite EC in P. split; [exact P|]. split; [exact SF|exact GL].
Qed.
Lemma run_fglm : exists r, fglm k p sqf sqpart m sq nv (nv - nl) lin eqs v old = Some r /\ fglm_spec nv p (pfs G) lmb v r.
Proof.
  destruct (Z_lt_le_dec p 1518500213) as [PU|PU].
  - destruct (Nat.eq_dec (length lmb) 1) as [E1|NE]; [destruct (run_one E1 PU) as (elim & cs & E & P); exists (Param elim cs); split; assumption|]. pose proof (len1 lmb D1). apply run_many; [lia|exact PU].
  - exists TooLarge. split; [|exact PU]. unfold fglm. rewrite (proj2 (Z.leb_le _ _) PU). reflexivity.
Qed.
End Fg.
End Step.

(** * A step from a reduced basis *)
Definition env_ok (p : Z) (e : env) : Prop := sqf_contract p (e_sqf e) (e_sqpart e) /\
  forall D, length (e_v e D) = D /\ (forall x, In x (e_v e D) -> (0 <= x < p)%Z) /\ length (e_old e D) = D.
(** sizes within the 32-bit indices of the program *)
Definition small_basis (nv : nat) (G : list poly) : Prop := (Z.of_nat (length (concat G)) <= 2147483647)%Z /\ few nv (leads G).

Lemma basis_step_cases c e G : cfg_ok c -> o_nev (c_o c) = 0 -> o_mo (c_o c) <> 1 -> 1 <= o_nv (c_o c) -> c_p c <> 2%Z -> env_ok (c_p c) e ->
  reduced_gb (o_nv (c_o c)) (c_p c) G -> small_basis (o_nv (c_o c)) G ->
  exists N ms, Forall (fun m => length m = o_nv (c_o c)) ms /\ forall fuel,
    basis_step c e fuel G = Limit \/ (basis_step c e fuel G = More /\ fuel <= N) \/
    (basis_step c e fuel G = Undef /\ mono_nf c fuel G ms = None) \/
    exists r, basis_step c e fuel G = F4Model.Ok r /\ step_spec (o_nv (c_o c)) (c_p c) (pfs G) (e_v e) r.
Proof.
  intros CK E0 E1 NV N2 [SQ HE] HG [SZ FW]. set (nv := o_nv (c_o c)) in *. set (p := c_p c) in *. pose proof (ck_p c CK) as Hp. fold p in Hp. assert (P2 : (2 <= p)%Z) by (destruct Hp; lia).
  unfold basis_step. fold nv p. change (lead_monos G) with (leads G).
  destruct (forallb fits (leads G)) eqn:EF; [|exists 0, []; split; [constructor|]; intros fuel; left; reflexivity]. cbn [when rbind].
  destruct (single_constant nv (leads G)) eqn:ES; [exists 0, []; split; [constructor|]; intros fuel; right; right; right; exists Empty; split; [reflexivity|apply (single_yes nv p G NV HG ES)]|].
  destruct (table_ok nv p G NV P2 HG) as (lv & eqs & ET & LL & LV & EQ). rewrite ET. cbn [of_opt rbind].
  assert (LK : lms_ok nv (leads G)). { apply Forall_forall. intros l Hl. split; [apply (leads_len nv p G P2 HG l Hl)|]. intros i. rewrite forallb_forall in EF. specialize (EF l Hl). unfold fits in EF. apply N.ltb_lt in EF. pose proof (ex_le_mdeg l i). unfold i32_max. change (2 ^ 16)%N with 65536%N in EF. lia. }
  pose proof (has_dimension_zero_ok nv (leads G) NV (lms_ok_len _ _ LK) (leads_minimal nv p G P2 HG) (single_no nv p G NV Hp HG ES)) as DZ.
  pose proof (not_unit nv p G NV Hp HG ES) as NU.
  destruct (has_dimension_zero nv (leads G)) eqn:EZ.
  - destruct (basis_run nv (leads G) NV LK (proj1 DZ eq_refl) FW (one_standard nv p G NV Hp HG ES)) as (lmb & BS & BI & D1 & DL & RUN).
    exists (length lmb), (map (mmul (FglmSpec.xpow nv (nv - 1) 1)) (strict_border nv G lmb)). split.
    { apply Forall_forall. intros x Hx. apply in_map_iff in Hx as (y & <- & Hy). unfold strict_border, border in Hy. apply filter_In in Hy as [Hy _]. apply filter_In in Hy as [Hy _]. apply BI in Hy. apply xm_len; [exact NV|]. apply Hy. }
    intros fuel. destruct (RUN fuel) as [ER|[ER HF]]; rewrite ER; [|right; left; split; [reflexivity|exact HF]].
    assert (SB : length (border nv lmb) <= length lmb) by apply filter_len_le.
    destruct (C59_matrix nv p G lmb (mono_nf c fuel G) (e_unstable e) NV P2 HG BS BI D1 (mono_nf_contract c fuel G CK E0 E1 HG) SZ ltac:(lia) ltac:(nia)) as [(_ & K)|[(_ & _ & K1 & K)|(_ & m & M & K & EC & R & MM)]]; rewrite K; cbn [of_opt rbind].
    + right. right. right. exists Unstable. split; [reflexivity|]. split; [exact NU|]. exists lmb. apply (basis_ok nv p G NV Hp HG lmb BS BI).
    + right. right. left. split; [reflexivity|exact K1].
    + destruct (HE (length lmb)) as (V1 & V2 & V3). destruct (run_fglm nv p G NV Hp HG lmb (e_k e) (e_sqf e) (e_sqpart e) (e_sq e) m M (e_v e (length lmb)) (e_old e (length lmb)) lv eqs BS BI D1 N2 SQ EC R MM LV EQ) as (r & Er & SR); [|exact V3|].
      { split; [exact V1|]. intros i Hi. symmetry. apply Z.mod_small. apply V2. apply nth_In. lia. }
      rewrite Er. cbn [of_opt rbind]. right. right. right. exists (Done r). split; [reflexivity|]. split; [exact NU|]. exists lmb. split; [apply (basis_ok nv p G NV Hp HG lmb BS BI)|exact SR].
  - exists 0, []. split; [constructor|]. intros fuel. right. right. right. exists Positive. split; [reflexivity|]. split; [exact NU|].
    destruct (free_power nv (leads G) (leads_len nv p G P2 HG)) as (k & Hk & St); [intros FM; apply DZ in FM; discriminate|]. exists k. apply (free_ok nv p G NV Hp HG k Hk St).
Qed.
(** the answer only depends on the ideal *)
Lemma step_spec_same nv p (G G' : pf -> Prop) v r : same_ideal nv p G G' -> step_spec nv p G' v r -> step_spec nv p G v r.
Proof.
  intros SI. assert (U : unit_ideal nv p G <-> unit_ideal nv p G') by (apply SI). assert (Q : forall l, quotient_basis nv p G' l -> quotient_basis nv p G l).
  { intros l (A & B & C). split; [exact A|]. split; [intros c Hc; apply B; apply SI; exact Hc|]. intros m Hm. destruct (C m Hm) as (c & Hc). exists c. apply SI. exact Hc. }
  assert (GL : forall V, generates_last nv p G' V -> generates_last nv p G V) by (intros V H Q'; rewrite <- (H Q'); apply SI).
  destruct r as [| | |r]; cbn [step_spec].
  - apply U.
  - intros (A & k & K & B). split; [rewrite U; exact A|]. exists k. split; [exact K|]. intros Q' HQ. apply B. apply SI. exact HQ.
  - intros (A & l & B). split; [rewrite U; exact A|]. exists l. apply Q. exact B.
  - intros (A & l & B & C). split; [rewrite U; exact A|]. exists l. split; [apply Q; exact B|]. destruct r as [elim cs| | | |]; cbn [fglm_spec] in *.
    + destruct C as (P & SF & GE). split; [|split; [exact SF|apply GL; exact GE]]. destruct P as (P1 & P3 & P4 & P5 & P6 & P7). split; [exact P1|]. split; [exact P3|]. split; [exact P4|]. split; [apply SI; exact P5|]. split; [exact P6|]. intros k Hk. destruct (P7 k Hk) as (Q1 & Q2 & Q3 & Q4). split; [exact Q1|]. split; [exact Q2|]. split; [exact Q3|]. apply SI. exact Q4.
    + exact C.
    + exact C.
    + destruct C as (V & C1 & C2 & C3). exists V. split; [exact C1|]. split; [exact C2|apply GL; exact C3].
    + destruct C as (M & (C1 & C3) & C2). exists M. split; [|exact C2]. split; [exact C1|]. intros i Hi. apply SI. apply C3. exact Hi.
Qed.
