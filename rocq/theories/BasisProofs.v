(** Reduced Groebner bases for the degree reverse lexicographic order: leading monomials, normal tails, independence of the
    standard monomials, the place of the variables among them. *)
From Coq Require Import ZArith NArith Arith List Bool Lia Sorted Znumtheory.
From Verif Require Import LinSpec MonoSpec MonoSpecProofs HilbSpec HilbLoopProofs GbSpec GbProofs GbIdeal F4Model F4Rows FglmSpec ModInvModel FglmModel MatVecProofs BuildModel StairProofs BuildProofs.
Import ListNotations.
Open Scope nat_scope.

(** The reduced Groebner basis, in the form the F4 computation returns it: monic elements with decreasing terms, in increasing order
    of their leading monomials. *)
Definition lead (f : list (Z * mono)) : mono := match f with t :: _ => snd t | [] => [] end.
Definition reduced_gb (nv : nat) (p : Z) (G : list (list (Z * mono))) : Prop :=
  groebner nv drl_lt p (pfs G) /\ reduced_basis nv drl_lt p G /\
  (forall f, In f G -> sorted_poly nv drl_lt p f /\ exists m f', f = (1%Z, m) :: f') /\
  ForallOrdPairs (fun f g => drl_lt (lead f) (lead g)) G.
Definition leads (G : list (list (Z * mono))) : list mono := map lead G.

Lemma sorted_app_one (l : list mono) y : StronglySorted drl_lt l -> (forall z, In z l -> drl_lt z y) -> StronglySorted drl_lt (l ++ [y]).
Proof. induction 1 as [|c l Hs IH F]; intros H; cbn [app]; [constructor; [constructor|constructor]|]. constructor; [apply IH; intros z Hz; apply H; right; exact Hz|]. apply Forall_app. split; [exact F|]. constructor; [apply H; left; reflexivity|constructor]. Qed.
Lemma cf_notin (h : bpoly) m : ~ In m (map snd h) -> cf h m = 0%Z.
Proof. induction h as [|t h IH]; intros Q; [reflexivity|]. cbn [cf]. destruct (mono_dec (snd t) m) as [E|_]; [destruct Q; left; exact E|]. apply IH. intros C. apply Q. right. exact C. Qed.
Lemma cf_at (h : bpoly) t : NoDup (map snd h) -> In t h -> cf h (snd t) = fst t.
Proof.
  induction h as [|s h IH]; intros H K; [destruct K|]. cbn [map] in H. inversion H as [|? ? N1 N2]; subst. cbn [cf]. destruct K as [->|K].
  - destruct (mono_dec (snd t) (snd t)) as [_|C]; [|contradiction]. rewrite cf_notin by exact N1. lia.
  - destruct (mono_dec (snd s) (snd t)) as [E|_]; [|apply IH; assumption]. destruct N1. rewrite E. apply in_map. exact K.
Qed.
Lemma mdeg_var nv k : k < nv -> mdeg (xpow nv k 1) = 1%N.
Proof.
  intros H. rewrite (mdeg_single (xpow nv k 1) k).
  - rewrite ex_var, Nat.eqb_refl. destruct (Nat.ltb_spec k nv); [reflexivity|lia].
  - intros i Hi. rewrite ex_var. destruct (Nat.eqb_spec i k); [contradiction|reflexivity].
Qed.
Lemma mono_ext nv (a c : mono) : length a = nv -> length c = nv -> (forall i, i < nv -> ex a i = ex c i) -> a = c.
Proof. intros La Lc H. apply (nth_ext _ _ 0%N 0%N); [congruence|]. intros i Hi. apply (H i). lia. Qed.
Lemma deg_le_one nv m : length m = nv -> (mdeg m <= 1)%N -> m = mone nv \/ exists k, k < nv /\ m = xpow nv k 1.
Proof.
  intros Lm Hd. destruct (mono_dec m (mone nv)) as [E|N]; [left; exact E|right].
  assert (K : exists k, k < nv /\ ex m k <> 0%N). { destruct (existsb (fun i => negb (ex m i =? 0)%N) (seq 0 nv)) eqn:B. - apply existsb_exists in B as (k & Hk & E). apply in_seq in Hk. exists k. split; [lia|]. apply negb_true_iff, N.eqb_neq in E. exact E. - exfalso. apply N. apply (mono_ext nv); [exact Lm|apply mone_length|]. intros i Hi. rewrite ex_mone. destruct (N.eqb_spec (ex m i) 0) as [E|E]; [exact E|]. assert (C : existsb (fun i => negb (ex m i =? 0)%N) (seq 0 nv) = true); [|congruence]. apply existsb_exists. exists i. split; [apply in_seq; lia|]. apply negb_true_iff, N.eqb_neq. exact E. }
  destruct K as (k & Hk & Nk). exists k. split; [exact Hk|]. assert (Dv : mdvd (xpow nv k 1) m). { intros i. rewrite ex_var. destruct (Nat.eqb_spec i k) as [->|]; [|cbn [andb]; lia]. destruct (k <? nv); cbn [andb]; lia. }
  pose proof (mul_quo nv (xpow nv k 1) m (var_len nv k 1) Lm Dv) as E. pose proof (f_equal mdeg E) as Ed. assert (Lq : length (mquo m (xpow nv k 1)) = nv) by (rewrite mquo_length by (rewrite var_len; exact Lm); exact Lm). rewrite mdeg_mmul in Ed by (rewrite var_len, Lq; reflexivity). rewrite (mdeg_var nv k Hk) in Ed. assert (Z0 : mdeg (mquo m (xpow nv k 1)) = 0%N) by lia. pose proof (mdeg_zero _ Z0) as Zi. rewrite <- E. apply (mono_ext nv); [rewrite E; exact Lm|apply var_len|]. intros i Hi. rewrite (ex_mmul (xpow nv k 1)) by (rewrite var_len, Lq; reflexivity). rewrite Zi. lia.
Qed.
Lemma var_lt nv i j : i < j -> j < nv -> drl_lt (xpow nv j 1) (xpow nv i 1).
Proof.
  intros Hij Hj. right. rewrite !mdeg_var by lia. split; [reflexivity|]. exists j. rewrite !ex_var, Nat.eqb_refl. destruct (Nat.eqb_spec j i); [lia|]. destruct (Nat.ltb_spec j nv); [|lia]. cbn [andb]. split; [lia|]. intros k Hk. rewrite !ex_var. destruct (Nat.eqb_spec k i); [lia|]. destruct (Nat.eqb_spec k j); [lia|]. reflexivity.
Qed.
Lemma var_inj nv i j : i < nv -> xpow nv i 1 = xpow nv j 1 -> i = j.
Proof. intros Hi E. pose proof (f_equal (fun m => ex m i) E) as K. cbv beta in K. rewrite !ex_var, Nat.eqb_refl in K. destruct (Nat.ltb_spec i nv); [|lia]. cbn [andb] in K. destruct (Nat.eqb_spec i j); [assumption|discriminate]. Qed.
Lemma var_ne_one nv i : i < nv -> xpow nv i 1 <> mone nv.
Proof. intros Hi E. pose proof (f_equal mdeg E) as K. rewrite mdeg_var, mdeg_mone in K by exact Hi. discriminate. Qed.
Lemma rev_sorted_var nv (l : list nat) : StronglySorted lt l -> (forall k, In k l -> k < nv) -> StronglySorted drl_lt (map (fun k => xpow nv k 1) (rev l)).
Proof.
  induction 1 as [|k l Hs IH F]; intros H; [constructor|]. cbn [rev]. rewrite map_app. apply sorted_app_one; [apply IH; intros; apply H; right; assumption|]. intros z Hz. apply in_map_iff in Hz as (j & <- & Hj). apply in_rev in Hj. rewrite Forall_forall in F. apply var_lt; [apply F; exact Hj|apply H; right; exact Hj].
Qed.
Lemma sorted_deg_split (l : list mono) : StronglySorted drl_lt l -> l = filter (fun m => (mdeg m <=? 1)%N) l ++ filter (fun m => negb (mdeg m <=? 1)%N) l.
Proof.
  induction 1 as [|c l Hs IH F]; [reflexivity|]. cbn [filter]. destruct (N.leb_spec (mdeg c) 1) as [K|K]; cbn [negb app].
  - rewrite <- IH. reflexivity.
  - rewrite Forall_forall in F. assert (N0 : forall z, In z l -> (mdeg z <=? 1)%N = false). { intros z Hz. apply N.leb_gt. destruct (F z Hz) as [Q|[Q _]]; lia. } clear -N0. assert (E1 : filter (fun m => (mdeg m <=? 1)%N) l = []). { induction l as [|z l IH]; [reflexivity|]. cbn [filter]. rewrite N0 by (left; reflexivity). apply IH. intros y Hy. apply N0. right. exact Hy. }
    assert (E2 : filter (fun m => negb (mdeg m <=? 1)%N) l = l). { clear E1. induction l as [|z l IH]; [reflexivity|]. cbn [filter]. rewrite N0 by (left; reflexivity). cbn [negb]. f_equal. apply IH. intros y Hy. apply N0. right. exact Hy. }
    rewrite E1, E2. reflexivity.
Qed.
(** the variables that are leading monomials *)
Definition lead_var (nv : nat) (lms : list mono) (q : nat) : bool := existsb (fun l => if mono_dec l (xpow nv q 1) then true else false) lms.
Lemma lead_var_iff nv lms q : lead_var nv lms q = true <-> In (xpow nv q 1) lms.
Proof.
  unfold lead_var. rewrite existsb_exists. split; [intros (l & Hl & E); destruct (mono_dec l (xpow nv q 1)) as [->|]; [exact Hl|discriminate]|]. intros H. exists (xpow nv q 1). split; [exact H|]. destruct (mono_dec (xpow nv q 1) (xpow nv q 1)); [reflexivity|contradiction].
Qed.
Section Vars.
Variables (nv : nat) (lms lmb : list mono).
Hypothesis NV : 1 <= nv.
Hypothesis LL : forall l, In l lms -> length l = nv.
Hypothesis BS : StronglySorted drl_lt lmb.
Hypothesis BI : forall m, In m lmb <-> standard nv lms m.
Hypothesis D1 : 1 <= length lmb.
Notation lin := (lead_var nv lms).
Lemma one_std : standard nv lms (mone nv).
Proof.
  split; [apply mone_length|]. intros l Hl Hd. destruct (b_std nv lms lmb BI 0 D1) as [_ K]. apply (K l Hl). intros i. specialize (Hd i). rewrite ex_mone in Hd. lia.
Qed.
Lemma var_std q : q < nv -> lin q = false <-> standard nv lms (xpow nv q 1).
Proof.
  intros Hq. split.
  - intros E. split; [apply var_len|]. intros l Hl Hd. assert (Hdeg : (mdeg l <= 1)%N) by (rewrite <- (mdeg_var nv q Hq); apply mdeg_mono; exact Hd). destruct (deg_le_one nv l (LL l Hl) Hdeg) as [->|(k & Hk & ->)].
    + destruct one_std as [_ K]. exact (K _ Hl (mdvd_refl _)).
    + assert (k = q). { specialize (Hd k). rewrite !ex_var, Nat.eqb_refl in Hd. destruct (Nat.ltb_spec k nv); [|lia]. cbn [andb] in Hd. destruct (Nat.eqb_spec k q); [assumption|cbn [andb] in Hd; lia]. } subst k. apply lead_var_iff in Hl. congruence.
  - intros [_ K]. destruct (lin q) eqn:E; [|reflexivity]. apply lead_var_iff in E. destruct (K _ E (mdvd_refl _)).
Qed.
Definition low : list mono := mone nv :: map (fun k => xpow nv k 1) (rev (filter (fun k => negb (lin k)) (seq 0 nv))).
Lemma low_in m : In m low <-> In m (filter (fun m => (mdeg m <=? 1)%N) lmb).
Proof.
  rewrite filter_In, BI. unfold low. split.
  - intros [<-|H].
    + split; [exact one_std|]. rewrite mdeg_mone. reflexivity.
    + apply in_map_iff in H as (k & <- & Hk). apply in_rev in Hk. apply filter_In in Hk as [Hk E]. apply in_seq in Hk. apply negb_true_iff in E. split; [apply var_std; [lia|exact E]|]. rewrite mdeg_var by lia. reflexivity.
  - intros [Hs Hd]. apply N.leb_le in Hd. destruct (deg_le_one nv m (proj1 Hs) Hd) as [->|(k & Hk & ->)]; [left; reflexivity|]. right. apply (in_map (fun k => xpow nv k 1)). rewrite <- in_rev. apply filter_In. split; [apply in_seq; lia|]. apply negb_true_iff. apply var_std; assumption.
Qed.
Lemma low_prefix : lmb = low ++ filter (fun m => negb (mdeg m <=? 1)%N) lmb.
Proof.
  rewrite (sorted_deg_split lmb BS) at 1. f_equal. apply sorted_same; [apply filter_sorted; exact BS| |intros m; symmetry; apply low_in].
  unfold low. constructor; [apply rev_sorted_var; [apply filter_sorted; apply seq_sorted|intros k Hk; apply filter_In in Hk as [Hk _]; apply in_seq in Hk; lia]|]. apply Forall_forall. intros z Hz. apply in_map_iff in Hz as (k & <- & Hk). apply in_rev in Hk. apply filter_In in Hk as [Hk _]. apply in_seq in Hk. apply drl_one; [apply var_len|apply var_ne_one; lia].
Qed.
Lemma low_room : 1 + length (filter (fun k => negb (lin k)) (seq 0 nv)) <= length lmb.
Proof. rewrite low_prefix, app_length. unfold low. cbn [length]. rewrite map_length, rev_length. lia. Qed.
Lemma place_ok : lin (nv - 1) = false -> var_basis nv lin (fun i => cf [(1%Z, nth i lmb [])]).
Proof.
  intros En q m Hq Eq. cbv beta. do 3 f_equal. rewrite low_prefix. assert (Ef : filter (fun k => negb (lin k)) (seq 0 nv) = filter (fun k => negb (lin k)) (seq 0 q) ++ q :: filter (fun k => negb (lin k)) (seq (S q) (nv - 2 - q)) ++ [nv - 1]).
  { replace (seq 0 nv) with (seq 0 (nv - 1) ++ [nv - 1]). 2:{ replace (seq 0 nv) with (seq 0 (S (nv - 1))) by (f_equal; lia). rewrite seq_S. reflexivity. } rewrite filter_app. cbn [filter]. rewrite En. cbn [negb]. rewrite (filter_seq_split (fun k => negb (lin k)) (nv - 1) q) by lia. rewrite Eq. cbn [negb]. rewrite <- !app_assoc. cbn [app]. replace (nv - 1 - S q) with (nv - 2 - q) by lia. reflexivity. }
  unfold low. rewrite Ef. rewrite rev_app_distr. cbn [rev]. rewrite rev_app_distr. cbn [rev app]. cbn [map app]. unfold var_place. set (w := filter (fun k => negb (lin k)) (seq (S q) (nv - 2 - q))). cbn [nth Nat.add]. rewrite <- app_assoc. cbn [app]. rewrite map_app. rewrite <- app_assoc. rewrite app_nth2 by (rewrite map_length, rev_length; lia). rewrite map_length, rev_length, Nat.sub_diag. reflexivity.
Qed.
End Vars.
Section RG.
Variables (nv : nat) (p : Z) (G : list bpoly).
Hypothesis P2 : (2 <= p)%Z.
Hypothesis HG : reduced_gb nv p G.
Notation lms := (leads G).
Lemma one_nz : ~ eqp p 1 0.
Proof. intros [q Hq]. destruct (Z_lt_le_dec q 1); nia. Qed.
Lemma small_nz c : (0 < c < p)%Z -> ~ eqp p c 0.
Proof. intros Hc [q Hq]. destruct (Z_lt_le_dec q 1); nia. Qed.
Lemma el_shape f : In f G -> exists tail : bpoly, f = (1%Z, lead f) :: tail /\ inc (rev tail) /\ (forall t, In t tail -> (0 < fst t < p)%Z /\ length (snd t) = nv /\ drl_lt (snd t) (lead f)) /\ length (lead f) = nv.
Proof.
  intros Hf. destruct HG as (_ & _ & HS & _). destruct (HS f Hf) as [(NE & Ht & Hs) (m & f' & ->)]. exists f'. cbn [lead snd]. split; [reflexivity|]. split; [|split].
  - clear -Hs. assert (Hs' : forall i j s t, nth_error f' i = Some s -> nth_error f' j = Some t -> (i < j) -> drl_lt (snd t) (snd s)). { intros i j s t E1 E2 L. apply (Hs (S i) (S j) s t E1 E2). lia. } clear Hs. revert Hs'. induction f' as [|t f' IH]; intros Hs; [constructor|]. unfold inc. cbn [rev]. rewrite map_app. apply sorted_app_one; [apply IH; intros i j s u E1 E2 L; apply (Hs (S i) (S j) s u E1 E2); lia|].
    intros y Hy. rewrite map_rev in Hy. apply in_rev in Hy. apply in_map_iff in Hy as (u & <- & Hu). apply In_nth_error in Hu as (j & Ej). apply (Hs 0 (S j) t u eq_refl Ej). lia.
  - intros t Htt. destruct (Ht t (or_intror Htt)) as [A B]. split; [exact A|]. split; [exact B|]. apply In_nth_error in Htt as (j & Ej). apply (Hs 0 (S j) (1%Z, m) t eq_refl Ej). lia.
  - apply (Ht (1%Z, m)). left. reflexivity.
Qed.
Lemma el_nodup f : In f G -> NoDup (map snd f).
Proof.
  intros Hf. destruct (el_shape f Hf) as (tail & E & Hi & Ht & _). rewrite E. cbn [map snd]. constructor.
  - intros C. apply in_map_iff in C as (t & Et & C). destruct (Ht t C) as (_ & _ & K). rewrite Et in K. exact (drl_irrefl _ K).
  - pose proof (inc_nodup _ Hi) as K. rewrite map_rev in K. apply NoDup_rev in K. rewrite rev_involutive in K. exact K.
Qed.
Lemma el_lead f : In f G -> cf f (lead f) = 1%Z /\ is_lead nv drl_lt p (cf f) (lead f).
Proof.
  intros Hf. pose proof (el_nodup f Hf) as ND. destruct (el_shape f Hf) as (tail & E & Hi & Ht & Ll). assert (C1 : cf f (lead f) = 1%Z). { pose proof (cf_at f (1%Z, lead f) ND) as K. cbn [fst snd] in K. apply K. rewrite E at 2. left. reflexivity. }
  split; [exact C1|]. split; [exact Ll|]. split; [rewrite C1; exact one_nz|]. intros m' Lm' Lt. rewrite cf_notin; [reflexivity|]. rewrite E. cbn [map snd]. intros [<-|C]; [exact (drl_irrefl _ Lt)|]. apply in_map_iff in C as (t & <- & C). destruct (Ht t C) as (_ & _ & K). apply (drl_irrefl (lead f)). exact (drl_trans _ _ _ Lt K).
Qed.
Lemma leads_len l : In l lms -> length l = nv.
Proof. intros H. apply in_map_iff in H as (f & <- & Hf). apply (el_lead f Hf). Qed.
Lemma leads_sorted : StronglySorted drl_lt lms.
Proof. destruct HG as (_ & _ & _ & H). unfold leads. clear -H. induction H as [|f l F H IH]; [constructor|]. cbn [map]. constructor; [exact IH|]. apply Forall_map. exact F. Qed.
Lemma leads_minimal : minimal_set lms.
Proof.
  split.
  - pose proof leads_sorted as K. clear -K. induction K as [|c l Hs IH F]; constructor; [|exact IH]. rewrite Forall_forall in F. intros C. exact (drl_irrefl c (F c C)).
  - intros a c Ha Hc Hd. apply in_map_iff in Ha as (f & <- & Hf). apply in_map_iff in Hc as (g & <- & Hg). apply In_nth_error in Hf as (i & Ei). apply In_nth_error in Hg as (j & Ej). destruct (Nat.eq_dec i j) as [<-|N]; [assert (EE : Some g = Some f) by exact (eq_trans (eq_sym Ej) Ei); congruence|]. exfalso. destruct HG as (_ & [_ R] & _).
    pose proof (nth_error_In _ _ Ei) as Hf. pose proof (nth_error_In _ _ Ej) as Hg. apply (R i j f g (lead f) (lead g) Ei Ej N (proj2 (el_lead f Hf))); [apply (el_lead g Hg)| |exact Hd]. rewrite (proj1 (el_lead g Hg)). exact one_nz.
Qed.
Lemma tail_std f tail : In f G -> f = (1%Z, lead f) :: tail -> forall t, In t tail -> (0 < fst t < p)%Z /\ standard nv lms (snd t).
Proof.
  intros Hf E t Ht. pose proof (el_shape f Hf) as (tail' & E' & _ & Hs & Ll). rewrite E in E' at 1. injection E' as <-. destruct (Hs t Ht) as (A & B & K). split; [exact A|]. split; [exact B|]. intros l Hl Hd. apply in_map_iff in Hl as (g & <- & Hg). apply In_nth_error in Hf as (j & Ej). apply In_nth_error in Hg as (i & Ei). destruct (Nat.eq_dec i j) as [->|N].
  - assert (EE : Some g = Some f) by exact (eq_trans (eq_sym Ei) Ej). injection EE as ->. destruct (dvd_le nv drl_lt (mono_order_drl nv) _ _ Ll B Hd) as [C|C]; [rewrite C in K; exact (drl_irrefl _ K)|exact (drl_irrefl _ (drl_trans _ _ _ K C))].
  - destruct HG as (_ & [_ R] & _). pose proof (nth_error_In _ _ Ei) as Hg. pose proof (nth_error_In _ _ Ej) as Hf. apply (R i j g f (lead g) (snd t) Ei Ej N (proj2 (el_lead g Hg)) B); [|exact Hd]. rewrite (cf_at f t (el_nodup f Hf)); [apply small_nz; exact A|]. rewrite E. right. exact Ht.
Qed.
Lemma el_at d : d < length lms -> exists tail : bpoly, nth_error G d = Some ((1%Z, nth d lms []) :: tail) /\ inc (rev tail) /\ forall t, In t tail -> (0 < fst t < p)%Z /\ standard nv lms (snd t).
Proof.
  intros Hd. unfold leads in Hd. rewrite map_length in Hd. destruct (nth_error G d) as [f|] eqn:E; [|exfalso; apply (proj2 (nth_error_Some G d)) in Hd; contradiction]. pose proof (nth_error_In _ _ E) as Hf. destruct (el_shape f Hf) as (tail & Ef & Hi & _ & _). exists tail. assert (El : nth d lms [] = lead f). { apply nth_error_nth. exact (map_nth_error lead d G E). }
  rewrite El. split; [f_equal; exact Ef|]. split; [exact Hi|]. exact (tail_std f tail Hf Ef).
Qed.
(** the standard monomials are independent *)
Variable lmb : list mono.
Hypothesis BS : StronglySorted drl_lt lmb.
Hypothesis BI : forall m, In m lmb <-> standard nv lms m.
Notation D := (length lmb).
Notation b i := (nth i lmb []).
Lemma last_nz (c : nat -> Z) k : (forall j, j < k -> eqp p (c j) 0) \/ exists j, j < k /\ ~ eqp p (c j) 0 /\ forall i, j < i < k -> eqp p (c i) 0.
Proof.
  induction k as [|k IH]; [left; intros; lia|]. destruct (Zdivide_dec p (c k - 0)) as [E|E].
  - destruct IH as [IH|(j & Hj & N & Z)]; [left; intros j Hj; destruct (Nat.eq_dec j k) as [->|]; [exact E|apply IH; lia]|]. right. exists j. split; [lia|]. split; [exact N|]. intros i Hi. destruct (Nat.eq_dec i k) as [->|]; [exact E|apply Z; lia].
  - right. exists k. split; [lia|]. split; [exact E|]. intros i Hi. lia.
Qed.
Lemma std_indep : independent nv p (pfs G) D (fun i => cf [(1%Z, b i)]).
Proof.
  intros c Ic. destruct (last_nz c D) as [A|(j0 & Hj & NZ & Zr)]; [exact A|]. exfalso. assert (Lj : length (b j0) = nv) by (apply (b_len nv lms lmb BI); exact Hj).
  assert (IL : is_lead nv drl_lt p (fun m => sumn D (fun j => (c j * cf [(1, b j)] m)%Z)) (b j0)).
  { split; [exact Lj|]. split.
    - rewrite (sumn_ext D _ (fun j => if j =? j0 then c j else 0%Z)).
      + rewrite (sumn_delta D j0 c Hj). exact NZ.
      + intros i Hi. cbn [cf fst snd]. destruct (Nat.eqb_spec i j0) as [->|N]; [destruct (mono_dec (b j0) (b j0)); [ring|contradiction]|]. destruct (mono_dec (b i) (b j0)) as [C|_]; [|ring]. exfalso. apply (drl_irrefl (b j0)). destruct (Nat.lt_total i j0) as [L|[L|L]]; [|lia|]; pose proof (sorted_nth lmb [] _ _ BS L ltac:(assumption)) as K; rewrite C in K; exact K.
    - intros m' Lm' Lt. rewrite <- (sumn_zero D). apply sumn_eqp. intros i Hi. cbn [cf fst snd]. destruct (mono_dec (b i) m') as [C|_]; [|exists 0%Z; ring]. destruct (Nat.lt_total i j0) as [L|[->|L]].
      + exfalso. pose proof (sorted_nth lmb [] _ _ BS L Hj) as K. rewrite C in K. exact (drl_irrefl _ (drl_trans _ _ _ K Lt)).
      + exfalso. rewrite C in Lt. exact (drl_irrefl _ Lt).
      + destruct (Zr i ltac:(lia)) as [q Hq]. exists q. lia. }
  destruct HG as (GR & _). destruct (GR _ _ Ic IL) as (g & l & (f & Hf & ->) & Il & Hd). pose proof (lead_unique nv drl_lt p (mono_order_drl nv) _ _ _ Il (proj2 (el_lead f Hf))) as ->. destruct (b_std nv lms lmb BI j0 Hj) as [_ K]. apply (K (lead f)); [apply in_map; exact Hf|exact Hd].
Qed.
End RG.
(** ** every monomial is a combination of standard monomials modulo the ideal, and no other combination of them is zero *)
Section Span.
Variables (nv : nat) (p : Z) (G : list bpoly).
Hypothesis P2 : (2 <= p)%Z.
Hypothesis HG : reduced_gb nv p G.
Notation lms := (leads G).
Lemma std_or m : length m = nv -> standard nv lms m \/ exists f, In f G /\ mdvd (lead f) m.
Proof.
  intros Hm. destruct (existsb (fun l => mdvdb l m) lms) eqn:E.
  - right. apply existsb_exists in E as (l & Hl & E). apply mdvdb_iff in E; [|rewrite (leads_len nv p G P2 HG l Hl); lia]. apply in_map_iff in Hl as (f & <- & Hf). exists f. auto.
  - left. split; [exact Hm|]. intros l Hl Hd. apply mdvdb_iff in Hd; [|rewrite (leads_len nv p G P2 HG l Hl); lia]. assert (existsb (fun l => mdvdb l m) lms = true) by (apply existsb_exists; exists l; auto). congruence.
Qed.
Lemma std_span m : length m = nv -> exists h : bpoly, (forall t, In t h -> standard nv lms (snd t)) /\ ideal nv p (pfs G) (fun u => (cf [(1, m)] u - cf h u)%Z).
Proof.
  intros Hm. induction (drl_wf nv m Hm) as [m _ IH]. destruct (std_or m Hm) as [S1|(f & Hf & Hd)].
  - exists [(1%Z, m)]. split; [intros t [<-|[]]; exact S1|]. apply lspan_zero. intros u Hu. unfold pzero. rewrite Z.sub_diag. reflexivity.
  - destruct (el_shape nv p G HG f Hf) as (tail & Ef & _ & HT & Ll). set (u := mquo m (lead f)). assert (Lu : length u = nv) by (unfold u; rewrite mquo_length; congruence). assert (Em : mmul u (lead f) = m) by (rewrite mmul_comm by congruence; apply (mul_quo nv); assumption).
    assert (K : exists h : bpoly, (forall t, In t h -> standard nv lms (snd t)) /\ ideal nv p (pfs G) (fun v => (cf (shift u tail) v - cf h v)%Z)).
    { clear Ef. induction tail as [|[c w] tail IHt].
      - exists []. split; [intros t []|]. apply lspan_zero. intros v Hv. unfold pzero. exists 0%Z. cbn [shift map cf]. ring.
      - destruct IHt as (h2 & S2 & I2); [intros t Ht; apply HT; right; exact Ht|]. destruct (HT (c, w) (or_introl eq_refl)) as (_ & Lw & Lt). cbn [snd] in Lw, Lt. assert (Luw : length (mmul u w) = nv) by (rewrite mmul_length; congruence).
        destruct (IH (mmul u w)) as (h1 & S1 & I1); [split; [exact Luw|split; [exact Hm|]]|exact Luw|].
        { rewrite <- Em. apply (drl_mul nv); assumption. }
        exists (map (fun t => ((c * fst t)%Z, snd t)) h1 ++ h2). split.
        + intros t Ht. apply in_app_or in Ht as [Ht|Ht]; [apply in_map_iff in Ht as (t' & <- & Ht'); exact (S1 t' Ht')|apply S2; exact Ht].
        + eapply lspan_ext; [apply lspan_add; [apply (lspan_scale nv p _ c _ I1)|exact I2]|]. intros v Hv. rewrite cf_app, cf_scale. cbv beta. unfold shift. cbn [map cf fst snd]. destruct (mono_dec (mmul u w) v); ring. }
    destruct K as (h & Sh & Ih). exists (map (fun t => ((-1) * fst t, snd t)%Z) h). split.
    + intros t Ht. apply in_map_iff in Ht as (t' & <- & Ht'). exact (Sh t' Ht').
    + eapply lspan_ext; [apply lspan_sub; [apply (ideal_mul nv p (pfs G) u (cf f) Lu); apply ideal_gen; exists f; auto|exact Ih]|]. intros v Hv. rewrite cf_scale. cbv beta. rewrite <- (cf_shift nv u f v Lu); [|rewrite Ef; intros t [<-|Ht]; [exact Ll|apply HT; exact Ht]|exact Hv]. rewrite Ef. unfold shift. cbn [map cf fst snd]. rewrite Em. destruct (mono_dec m v); ring.
Qed.
(** a combination of standard monomials in the ideal is zero *)
Lemma std_zero (h : bpoly) : (forall t, In t h -> standard nv lms (snd t)) -> ideal nv p (pfs G) (cf h) -> forall m, length m = nv -> eqp p (cf h m) 0.
Proof.
  intros Hs Ih. destruct (lead_exists nv drl_lt p (mono_order_drl nv) h) as [Z0|(m0 & IL)]; [intros t Ht; apply (Hs t Ht)|exact Z0|]. exfalso.
  destruct HG as (GR & _). destruct (GR _ _ Ih IL) as (g & l & (f & Hf & ->) & Il & Hd). pose proof (lead_unique nv drl_lt p (mono_order_drl nv) _ _ _ Il (proj2 (el_lead nv p G P2 HG f Hf))) as ->.
  destruct IL as (_ & NZ & _). destruct (in_dec mono_dec m0 (map snd h)) as [I0|N0].
  - apply in_map_iff in I0 as (t & <- & Ht). destruct (Hs t Ht) as [_ K]. apply (K (lead f)); [apply in_map; exact Hf|exact Hd].
  - apply NZ. rewrite (cf_notin h m0 N0). reflexivity.
Qed.
End Span.
