(** The staircase and the multiplication by the last variable. *)
From Coq Require Import ZArith NArith Arith List Bool Lia Sorted.
From Verif Require Import MonoSpec MonoSpecProofs HilbSpec GbSpec GbProofs FglmSpec ModInvModel FglmModel BuildModel.
Import ListNotations.
Open Scope nat_scope.

(** * lists *)
Lemma filter_seq_split (f : nat -> bool) D i : i < D -> filter f (seq 0 D) = filter f (seq 0 i) ++ (if f i then [i] else []) ++ filter f (seq (S i) (D - S i)).
Proof.
  intros H. replace D with (i + (1 + (D - S i))) at 1 by lia. rewrite seq_app, filter_app. f_equal. cbn [Nat.add seq filter]. destruct (f i); reflexivity.
Qed.
Lemma filter_seq_nth (f : nat -> bool) D i : i < D -> f i = true -> nth_error (filter f (seq 0 D)) (length (filter f (seq 0 i))) = Some i.
Proof. intros H E. rewrite (filter_seq_split f D i H), E. rewrite nth_error_app2 by lia. rewrite Nat.sub_diag. reflexivity. Qed.
Lemma filter_seq_S (f : nat -> bool) i : filter f (seq 0 (S i)) = filter f (seq 0 i) ++ (if f i then [i] else []).
Proof. rewrite seq_S, filter_app. cbn [Nat.add filter]. destruct (f i); reflexivity. Qed.
Lemma filter_seq_le (f : nat -> bool) D i : i <= D -> length (filter f (seq 0 i)) <= length (filter f (seq 0 D)).
Proof. intros H. replace D with (i + (D - i)) by lia. rewrite seq_app, filter_app, app_length. lia. Qed.
Lemma filter_seq_lt (f : nat -> bool) D i : i < D -> f i = true -> length (filter f (seq 0 i)) < length (filter f (seq 0 D)).
Proof. intros H E. rewrite (filter_seq_split f D i H), E, !app_length. cbn [length]. lia. Qed.
Lemma filter_split3 {A} (f g h : A -> bool) l : (forall x, In x l -> (f x = true /\ g x = false /\ h x = false) \/ (f x = false /\ g x = true /\ h x = false) \/ (f x = false /\ g x = false /\ h x = true)) ->
  length (filter f l) + length (filter g l) + length (filter h l) = length l.
Proof.
  induction l as [|x l IH]; intros H; [reflexivity|]. specialize (IH (fun y Hy => H y (or_intror Hy))). cbn [filter]. destruct (H x (or_introl eq_refl)) as [(-> & -> & ->)|[(-> & -> & ->)|(-> & -> & ->)]]; cbn [length]; lia.
Qed.
Lemma sorted_nth (l : list mono) d i j : StronglySorted drl_lt l -> i < j -> j < length l -> drl_lt (nth i l d) (nth j l d).
Proof.
  intros H. revert i j. induction H as [|a l H IH F]; intros i j Hij Hj; [cbn in Hj; lia|]. destruct j as [|j]; [lia|]. cbn [length] in Hj. destruct i as [|i]; cbn [nth].
  - rewrite Forall_forall in F. apply F. apply nth_In. lia.
  - apply IH; lia.
Qed.
Lemma sorted_same (l l' : list mono) : StronglySorted drl_lt l -> StronglySorted drl_lt l' -> (forall m, In m l <-> In m l') -> l = l'.
Proof.
  intros H. revert l'. induction H as [|a l H IH F]; intros l' H' E.
  - destruct l' as [|b l']; [reflexivity|]. destruct (proj2 (E b) (or_introl eq_refl)).
  - destruct H' as [|b l' H' F']; [destruct (proj1 (E a) (or_introl eq_refl))|]. rewrite Forall_forall in F, F'.
    assert (a = b).
    { destruct (proj1 (E a) (or_introl eq_refl)) as [->|Ia]; [reflexivity|]. destruct (proj2 (E b) (or_introl eq_refl)) as [->|Ib]; [reflexivity|]. exfalso. apply (drl_irrefl a). eapply drl_trans; [apply F; exact Ib|apply F'; exact Ia]. }
    subst b. f_equal. apply IH; [exact H'|]. intros m. split; intros Hm.
    + destruct (proj1 (E m) (or_intror Hm)) as [<-|K]; [|exact K]. destruct (drl_irrefl a). apply F. exact Hm.
    + destruct (proj2 (E m) (or_intror Hm)) as [<-|K]; [|exact K]. destruct (drl_irrefl a). apply F'. exact Hm.
Qed.
Lemma sorted_map (f : nat -> mono) (l : list nat) : StronglySorted lt l -> (forall i j, In i l -> In j l -> i < j -> drl_lt (f i) (f j)) -> StronglySorted drl_lt (map f l).
Proof.
  intros H. induction H as [|a l H IH F]; intros K; cbn [map]; constructor.
  - apply IH. intros i j Hi Hj. apply K; right; assumption.
  - apply Forall_forall. intros m Hm. apply in_map_iff in Hm as (i & <- & Hi). rewrite Forall_forall in F. apply K; [left; reflexivity|right; exact Hi|apply F; exact Hi].
Qed.
Lemma seq_sorted a n : StronglySorted lt (seq a n).
Proof. revert a. induction n as [|n IH]; intros a; cbn [seq]; constructor; [apply IH|]. apply Forall_forall. intros i Hi. apply in_seq in Hi. lia. Qed.
Lemma filter_sorted {A} (R : A -> A -> Prop) (f : A -> bool) l : StronglySorted R l -> StronglySorted R (filter f l).
Proof.
  intros H. induction H as [|a l H IH F]; cbn [filter]; [constructor|]. destruct (f a); [|exact IH]. constructor; [exact IH|]. rewrite Forall_forall in *. intros x Hx. apply filter_In in Hx. apply F. apply Hx.
Qed.
Lemma last_In {A} (l : list A) d : l <> [] -> In (last l d) l.
Proof. intros H. destruct (exists_last H) as (l' & x & ->). rewrite last_last. apply in_or_app. right. left. reflexivity. Qed.
Lemma sorted_last (l : list mono) d m : StronglySorted drl_lt l -> In m l -> m = last l d \/ drl_lt m (last l d).
Proof.
  intros H Hm. destruct l as [|a l]; [destruct Hm|]. destruct (@exists_last _ (a :: l)) as (l' & x & E); [discriminate|]. rewrite E in *. rewrite last_last. apply in_app_or in Hm as [Hm|[<-|[]]]; [right|left; reflexivity].
  clear E. induction l' as [|b l' IH]; [destruct Hm|]. cbn [app] in H. inversion H as [|? ? H1 F]; subst. destruct Hm as [<-|Hm]; [|apply IH; assumption]. rewrite Forall_forall in F. apply F. apply in_or_app. right. left. reflexivity.
Qed.

(** * monomials *)
Lemma in_nth_m (m : mono) (l : list mono) : In m l -> exists i, i < length l /\ nth i l [] = m.
Proof. intros H. destruct (In_nth l m [] H) as (i & Hi & E). exists i. split; [exact Hi|exact E]. Qed.
Lemma ex_var nv k i : ex (xpow nv k 1) i = if (i =? k) && (i <? nv) then 1%N else 0%N.
Proof.
  unfold ex, xpow. destruct (Nat.ltb_spec i nv) as [H|H].
  - rewrite nth_indep with (d' := (fun j => if j =? k then N.of_nat 1 else 0%N) 0) by (rewrite map_length, seq_length; exact H). rewrite map_nth with (f := fun j => if j =? k then N.of_nat 1 else 0%N). rewrite seq_nth by exact H. cbn [Nat.add]. rewrite andb_true_r. reflexivity.
  - rewrite nth_overflow by (rewrite map_length, seq_length; exact H). rewrite andb_false_r. reflexivity.
Qed.
Lemma var_len nv k j : length (xpow nv k j) = nv.
Proof. unfold xpow. rewrite map_length, seq_length. reflexivity. Qed.

Section Stair.
Variable nv : nat.
Hypothesis NV : 1 <= nv.
Notation n := (nv - 1).
Notation x := (xpow nv n 1).
Lemma ex_x i : ex x i = if i =? n then 1%N else 0%N.
Proof. rewrite ex_var. destruct (Nat.eqb_spec i n); [|reflexivity]. destruct (Nat.ltb_spec i nv); [reflexivity|lia]. Qed.
Lemma ex_xm m i : length m = nv -> ex (mmul x m) i = ((if (i =? n)%nat then 1 else 0) + ex m i)%N.
Proof. intros H. rewrite ex_mmul by (rewrite var_len; lia). rewrite ex_x. reflexivity. Qed.
Lemma xm_len m : length m = nv -> length (mmul x m) = nv.
Proof. intros H. rewrite mmul_length; rewrite var_len; lia. Qed.
Lemma eq_xxn_ok a b : length a = nv -> length b = nv -> eq_xxn nv a b = true <-> b = mmul x a.
Proof.
  intros Ha Hb. unfold eq_xxn. rewrite andb_true_iff, forallb_forall, N.eqb_eq. split.
  - intros [H1 H2]. apply ex_eq; [rewrite xm_len; lia|]. intros i. rewrite ex_xm by exact Ha. destruct (Nat.eqb_spec i n) as [->|N1]; [lia|]. destruct (Nat.lt_ge_cases i nv) as [L|L].
    + specialize (H1 i ltac:(apply in_seq; lia)). apply N.eqb_eq in H1. lia.
    + rewrite !ex_overflow by lia. reflexivity.
  - intros ->. split; [intros i Hi; apply in_seq in Hi|]; rewrite ex_xm by exact Ha.
    + destruct (Nat.eqb_spec i n); [lia|]. apply N.eqb_eq. lia.
    + rewrite Nat.eqb_refl. lia.
Qed.
Lemma div_xxn_ok a b : length a = nv -> length b = nv -> div_xxn nv a b = true <-> mdvd b (mmul x a).
Proof.
  intros Ha Hb. unfold div_xxn. rewrite andb_true_iff, forallb_forall, N.leb_le. split.
  - intros [H1 H2] i. rewrite ex_xm by exact Ha. destruct (Nat.eqb_spec i n) as [->|N1]; [lia|]. destruct (Nat.lt_ge_cases i nv) as [L|L].
    + specialize (H1 i ltac:(apply in_seq; lia)). apply N.leb_le in H1. lia.
    + rewrite !ex_overflow by lia. lia.
  - intros H. split; [intros i Hi; apply in_seq in Hi; specialize (H i)|specialize (H n)]; rewrite ex_xm in H by exact Ha.
    + destruct (Nat.eqb_spec i n); [lia|]. apply N.leb_le. lia.
    + rewrite Nat.eqb_refl in H. lia.
Qed.
Lemma xm_inj a b : length a = nv -> length b = nv -> mmul x a = mmul x b -> a = b.
Proof. intros Ha Hb E. apply ex_eq; [lia|]. intros i. pose proof (f_equal (fun m => ex m i) E) as K. cbv beta in K. rewrite !ex_xm in K by assumption. lia. Qed.
Lemma xm_mono a b : length a = nv -> length b = nv -> drl_lt a b -> drl_lt (mmul x a) (mmul x b).
Proof. intros Ha Hb. apply (drl_mul nv); [exact Ha|exact Hb|apply var_len]. Qed.
Lemma vm_grow k a : k < nv -> length a = nv -> drl_lt a (mmul (xpow nv k 1) a).
Proof.
  intros Hk Ha. rewrite <- (mmul_one_l a nv Ha) at 1. rewrite (mmul_comm (mone nv)), (mmul_comm (xpow nv k 1)) by (rewrite ?mone_length, ?var_len; lia). apply (drl_mul nv); [apply mone_length|apply var_len|exact Ha|]. apply drl_one; [apply var_len|]. intros E. pose proof (f_equal (fun m => ex m k) E) as K. cbv beta in K. rewrite ex_var, ex_mone, Nat.eqb_refl in K. destruct (Nat.ltb_spec k nv); [discriminate|lia].
Qed.

Variables (lms lmb : list mono).
Hypothesis LL : forall l, In l lms -> length l = nv.
Hypothesis LM : minimal_set lms.
Hypothesis LS : StronglySorted drl_lt lms.
Hypothesis BS : StronglySorted drl_lt lmb.
Hypothesis BI : forall m, In m lmb <-> standard nv lms m.
Notation D := (length lmb).
Notation b i := (nth i lmb []).
Lemma b_len i : i < D -> length (b i) = nv.
Proof. intros H. apply (proj1 (BI (b i)) (nth_In _ _ H)). Qed.
Lemma b_std i : i < D -> standard nv lms (b i).
Proof. intros H. apply BI. apply nth_In. exact H. Qed.
Lemma not_std m : length m = nv -> ~ In m lmb -> exists l, In l lms /\ mdvd l m.
Proof.
  intros Hm N. destruct (existsb (fun l => mdvdb l m) lms) eqn:E.
  - apply existsb_exists in E as (l & Hl & E). exists l. split; [exact Hl|]. apply mdvdb_iff in E; [exact E|rewrite LL by exact Hl; lia].
  - exfalso. apply N. apply BI. split; [exact Hm|]. intros l Hl Hd. apply mdvdb_iff in Hd; [|rewrite LL by exact Hl; lia]. assert (existsb (fun l => mdvdb l m) lms = true) by (apply existsb_exists; exists l; auto). congruence.
Qed.
Lemma out_lead m : In m lmb -> ~ In (mmul x m) lmb -> exists l, In l lms /\ mdvd l (mmul x m) /\ ex l n = (ex m n + 1)%N.
Proof.
  intros Hm N. assert (Lm : length m = nv) by (apply BI in Hm; apply Hm). destruct (not_std (mmul x m) (xm_len m Lm) N) as (l & Hl & Hd). exists l. split; [exact Hl|]. split; [exact Hd|].
  apply BI in Hm as [_ Hm]. pose proof (Hd n) as K. rewrite ex_xm, Nat.eqb_refl in K by exact Lm. destruct (N.eq_dec (ex l n) (ex m n + 1)) as [Ee|Ne]; [exact Ee|]. exfalso. apply (Hm l Hl). intros i. specialize (Hd i). rewrite ex_xm in Hd by exact Lm. destruct (Nat.eqb_spec i n) as [Ei|Ei]; [rewrite Ei in *; lia|lia].
Qed.
Lemma lead_from l : In l lms -> ex l n <> 0%N -> exists m, In m lmb /\ l = mmul x m.
Proof.
  intros Hl Hn. pose proof (LL l Hl) as Ll. assert (Dv : mdvd x l). { intros i. rewrite ex_x. destruct (Nat.eqb_spec i n) as [->|]; lia. }
  exists (mquo l x). assert (E : mmul x (mquo l x) = l). { rewrite mmul_comm by (rewrite mquo_length; rewrite ?var_len; lia). apply mdvd_mquo; [rewrite var_len; lia|exact Dv]. }
  split; [|congruence]. apply BI. assert (Lq : length (mquo l x) = nv) by (rewrite mquo_length; rewrite ?var_len; lia). split; [exact Lq|]. intros l' Hl' Hd. assert (Dl : mdvd l' l). { rewrite <- E. eapply mdvd_trans; [exact Hd|]. intros i. rewrite ex_xm by exact Lq. lia. }
  pose proof (proj2 LM l' l Hl' Hl Dl) as ->. specialize (Hd n). rewrite <- E in Hd at 1. rewrite ex_xm, Nat.eqb_refl in Hd by exact Lq. lia.
Qed.
Lemma lead_out m l : In l lms -> l = mmul x m -> ~ In l lmb.
Proof. intros Hl _ H. apply BI in H as [_ H]. apply (H l Hl). apply mdvd_refl. Qed.

(** ** members *)
Lemma find_xxn_ok a l pos : length a = nv -> (forall m, In m l -> length m = nv) ->
  match find_xxn nv a l pos with
  | Some q => pos <= q < pos + length l /\ nth (q - pos) l [] = mmul x a
  | None => ~ In (mmul x a) l
  end.
Proof.
  intros Ha. revert pos. induction l as [|c l IH]; intros pos Hl; cbn [find_xxn]; [intros []|]. destruct (eq_xxn nv a c) eqn:E.
  - apply eq_xxn_ok in E; [|exact Ha|apply Hl; left; reflexivity]. rewrite Nat.sub_diag. cbn [length nth]. split; [lia|exact E].
  - specialize (IH (S pos) (fun m Hm => Hl m (or_intror Hm))). destruct (find_xxn nv a l (S pos)) as [q|].
    + destruct IH as [I1 I2]. cbn [length]. split; [lia|]. replace (q - pos) with (S (q - S pos)) by lia. exact I2.
    + intros [->|H]; [|contradiction]. assert (eq_xxn nv a (mmul x a) = true) by (apply eq_xxn_ok; [exact Ha|apply xm_len; exact Ha|reflexivity]). congruence.
Qed.
Lemma member_ok i : i < D -> match member_xxn nv lmb i with
  | Some q => i < q < D /\ b q = mmul x (b i)
  | None => ~ In (mmul x (b i)) lmb end.
Proof.
  intros Hi. unfold member_xxn. assert (E : skipn i lmb = b i :: skipn (S i) lmb). { clear -Hi. revert i Hi. induction lmb as [|a l IH]; intros i Hi; [cbn in Hi; lia|]. destruct i; [reflexivity|]. cbn [skipn nth length] in *. apply IH. lia. }
  rewrite E. pose proof (find_xxn_ok (b i) (skipn (S i) lmb) (S i) (b_len i Hi)) as K. assert (HL : forall m, In m (skipn (S i) lmb) -> length m = nv). { intros m Hm. apply BI. rewrite <- (firstn_skipn (S i) lmb). apply in_or_app. right. exact Hm. }
  specialize (K HL). destruct (find_xxn nv (b i) (skipn (S i) lmb) (S i)) as [q|].
  - destruct K as [K1 K2]. rewrite skipn_length in K1. split; [lia|]. rewrite <- K2. replace q with (S i + (q - S i)) at 1 by lia. 
    assert (Q : forall (l : list mono) k j, nth (k + j) l [] = nth j (skipn k l) []); [|apply Q]. induction l as [|a l IH]; intros k j; [rewrite skipn_nil; destruct (k + j), j; reflexivity|]. destruct k; [reflexivity|]. cbn [skipn Nat.add nth]. apply IH.
  - intros H. apply K. destruct (in_nth_m _ _ H) as (q & Hq & Eq). assert (i < q).
    { destruct (Nat.lt_trichotomy i q) as [?|[<-|L]]; [assumption| |]; exfalso; pose proof (vm_grow n (b i) ltac:(lia) (b_len i Hi)) as G; rewrite <- Eq in G; [exact (drl_irrefl _ G)|]. apply (drl_irrefl (b i)). eapply drl_trans; [exact G|]. apply sorted_nth; [exact BS|exact L|exact Hi]. }
    rewrite <- Eq. rewrite <- (firstn_skipn (S i) lmb) at 1. rewrite app_nth2 by (rewrite firstn_length; lia). apply nth_In. rewrite firstn_length, skipn_length. lia.
Qed.

(** ** leading monomials *)
Definition isl (i : nat) : bool := existsb (fun l => if mono_dec l (mmul x (b i)) then true else false) lms.
Definition mem (i : nat) : bool := match member_xxn nv lmb i with Some _ => true | None => false end.
Definition isx (i : nat) : bool := negb (mem i) && negb (isl i).
Notation L := (div_list nv lms).
Lemma isl_iff i : isl i = true <-> In (mmul x (b i)) lms.
Proof.
  unfold isl. rewrite existsb_exists. split.
  - intros (l & Hl & E). destruct (mono_dec l (mmul x (b i))) as [<-|]; [exact Hl|discriminate].
  - intros H. eexists. split; [exact H|]. destruct (mono_dec _ _); [reflexivity|congruence].
Qed.
Lemma mem_iff i : i < D -> mem i = true <-> In (mmul x (b i)) lmb.
Proof.
  intros Hi. unfold mem. pose proof (member_ok i Hi) as K. destruct (member_xxn nv lmb i) as [q|]; split; intros H; try discriminate; try contradiction; [|reflexivity]. destruct K as [K1 K2]. rewrite <- K2. apply nth_In. lia.
Qed.
Lemma isl_mem i : i < D -> isl i = true -> mem i = false.
Proof. intros Hi H. apply isl_iff in H. destruct (mem i) eqn:E; [|reflexivity]. apply (mem_iff i Hi) in E. destruct (lead_out (b i) _ H eq_refl E). Qed.
Lemma div_list_in d : In d L <-> d < length lms /\ ex (nth d lms []) n <> 0%N.
Proof. unfold div_list. rewrite filter_In, in_seq, negb_true_iff, N.eqb_neq. split; intros []; split; try assumption; lia. Qed.
Lemma leads_match : map (fun i => mmul x (b i)) (filter isl (seq 0 D)) = map (fun d => nth d lms []) L.
Proof.
  apply sorted_same.
  - apply sorted_map; [apply filter_sorted, seq_sorted|]. intros i j Hi Hj Hij. apply filter_In in Hi as [Hi _], Hj as [Hj _]. apply in_seq in Hi, Hj. apply xm_mono; [apply b_len; lia|apply b_len; lia|]. apply sorted_nth; [exact BS|exact Hij|lia].
  - apply sorted_map; [apply filter_sorted, seq_sorted|]. intros i j Hi Hj Hij. apply div_list_in in Hi, Hj. apply sorted_nth; [exact LS|exact Hij|lia].
  - intros m. rewrite !in_map_iff. split.
    + intros (i & <- & Hi). apply filter_In in Hi as [Hi Hl]. apply in_seq in Hi. apply isl_iff in Hl. destruct (in_nth_m _ _ Hl) as (d & Hd & Ed). exists d. split; [exact Ed|]. apply div_list_in. split; [exact Hd|]. rewrite Ed. rewrite ex_xm, Nat.eqb_refl by (apply b_len; lia). lia.
    + intros (d & <- & Hd). apply div_list_in in Hd as [Hd Hn]. destruct (lead_from _ (nth_In lms [] Hd) Hn) as (m & Hm & Em). destruct (in_nth_m _ _ Hm) as (i & Hi & Ei). exists i. split; [rewrite Ei; congruence|]. apply filter_In. split; [apply in_seq; lia|]. apply isl_iff. rewrite Ei, <- Em. apply nth_In. exact Hd.
Qed.
Lemma lead_count : length (filter isl (seq 0 D)) = length L.
Proof. pose proof (f_equal (@length mono) leads_match) as K. rewrite !map_length in K. exact K. Qed.
Lemma lead_nth i : i < D -> isl i = true -> exists d, nth_error L (length (filter isl (seq 0 i))) = Some d /\ d < length lms /\ nth d lms [] = mmul x (b i).
Proof.
  intros Hi E. pose proof (filter_seq_nth isl D i Hi E) as K. pose proof (f_equal (fun l => nth_error l (length (filter isl (seq 0 i)))) leads_match) as Q. cbv beta in Q. rewrite !nth_error_map, K in Q. cbn [option_map] in Q. destruct (nth_error L _) as [d|] eqn:Ed; [|discriminate]. cbn [option_map] in Q. injection Q as Q. exists d. split; [reflexivity|]. split; [|congruence]. apply nth_error_In in Ed. apply div_list_in in Ed. apply Ed.
Qed.
(** nonleading products outside the staircase exist only if some leading monomial is free of x_n *)
Lemma extra_room i : i < D -> isx i = true -> length L < length lms.
Proof.
  intros Hi H. apply andb_true_iff in H as [H1 H2]. apply negb_true_iff in H1, H2.
  assert (Hb : In (b i) lmb) by (apply nth_In; exact Hi). assert (Nx : ~ In (mmul x (b i)) lmb). { intros K. apply (mem_iff i Hi) in K. congruence. }
  assert (exists l, In l lms /\ ex l n = 0%N) as (l & Hl & En).
  { destruct (out_lead _ Hb Nx) as (l & Hl & Hd & En). assert (Ll := LL l Hl). assert (Lb := b_len i Hi).
    assert (2 <= nv). { destruct (Nat.le_gt_cases 2 nv) as [?|C]; [assumption|exfalso]. assert (nv = 1) by lia. assert (isl i = true); [|congruence]. apply isl_iff. replace (mmul x (b i)) with l; [exact Hl|]. apply ex_eq; [rewrite xm_len; lia|]. intros j. rewrite ex_xm by exact Lb. destruct (Nat.eqb_spec j n) as [->|]; [lia|]. rewrite !ex_overflow by lia. reflexivity. }
    set (F := filter (fun m => (ex m n =? 0)%N) lmb). assert (F1 : In (mone nv) F).
    { apply filter_In. split; [|rewrite ex_mone; reflexivity]. apply BI. split; [apply mone_length|]. intros l' Hl' Hd'. apply BI in Hb as [_ Hb]. apply (Hb l' Hl'). intros j. specialize (Hd' j). rewrite ex_mone in Hd'. lia. }
    set (m := last F []). assert (Hm : In m F) by (apply last_In; intros E; rewrite E in F1; destruct F1). apply filter_In in Hm as [Hm1 Hm2]. apply N.eqb_eq in Hm2. assert (Lm : length m = nv) by (apply BI in Hm1; apply Hm1).
    assert (Ey : ex (mmul (xpow nv 0 1) m) n = 0%N). { rewrite ex_mmul by (rewrite var_len; lia). rewrite ex_var. destruct (Nat.eqb_spec n 0); [lia|]. cbn [andb]. lia. }
    destruct (not_std (mmul (xpow nv 0 1) m)) as (l' & Hl' & Hd').
    - rewrite mmul_length; rewrite var_len; lia.
    - intros K. pose proof (vm_grow 0 m ltac:(lia) Lm) as G. destruct (sorted_last F [] (mmul (xpow nv 0 1) m)) as [E|E].
      + apply filter_sorted. exact BS.
      + apply filter_In. split; [exact K|]. rewrite Ey. reflexivity.
      + fold m in E. rewrite E in G. exact (drl_irrefl _ G).
      + fold m in E. exact (drl_irrefl _ (drl_trans _ _ _ G E)).
    - exists l'. split; [exact Hl'|]. specialize (Hd' n). rewrite Ey in Hd'. lia. }
  destruct (in_nth_m _ _ Hl) as (d & Hd & Ed). unfold div_list. assert (Q : forall (f : nat -> bool) l, In d l -> f d = false -> length (filter f l) < length l).
  { intros f. induction l0 as [|a l0 IH]; intros Ha Hf; [destruct Ha|]. cbn [filter length]. destruct Ha as [->|Ha]; [rewrite Hf; assert (length (filter f l0) <= length l0) by (clear; induction l0 as [|a l0 IH]; cbn [filter length]; [lia|]; destruct (f a); cbn [length]; lia); lia|]. specialize (IH Ha Hf). destruct (f a); cbn [length]; lia. }
  specialize (Q (fun i => negb (ex (nth i lms []) n =? 0)%N) (seq 0 (length lms)) ltac:(apply in_seq; lia)). rewrite seq_length in Q. apply Q. cbv beta. rewrite Ed, En. reflexivity.
Qed.
Lemma lead_some : 1 <= D -> 1 <= length L.
Proof.
  intros HD. set (m := last lmb []). assert (Hm : In m lmb) by (apply last_In; intros E; rewrite E in HD; cbn in HD; lia). assert (Lm : length m = nv) by (apply BI in Hm; apply Hm).
  destruct (out_lead m Hm) as (l & Hl & _ & En).
  - intros K. pose proof (vm_grow n m ltac:(lia) Lm) as G. destruct (sorted_last lmb [] _ BS K) as [E|E]; fold m in E; [rewrite E in G; exact (drl_irrefl _ G)|exact (drl_irrefl _ (drl_trans _ _ _ G E))].
  - destruct (in_nth_m _ _ Hl) as (d & Hd & Ed). assert (In d L). { apply div_list_in. split; [exact Hd|]. rewrite Ed. lia. } destruct L; [destruct H|cbn [length]; lia].
Qed.
Lemma three_way : length (filter mem (seq 0 D)) + length (filter isl (seq 0 D)) + length (filter isx (seq 0 D)) = D.
Proof.
  rewrite (filter_split3 mem isl isx); [apply seq_length|]. intros i Hi. apply in_seq in Hi. unfold isx. destruct (isl i) eqn:E.
  - right. left. rewrite (isl_mem i) by (lia || exact E). auto.
  - destruct (mem i); auto.
Qed.
Lemma div_at i : i < D -> mem i = false -> exists d, nth_error (div_xn nv lms) (length (filter isl (seq 0 i))) = Some d /\ d < length lms /\ eq_xxn nv (b i) (nth d lms []) = isl i /\ (isl i = true -> nth_error L (length (filter isl (seq 0 i))) = Some d /\ nth d lms [] = mmul x (b i)).
Proof.
  intros Hi Hm. unfold div_xn. destruct (isl i) eqn:E.
  - destruct (lead_nth i Hi E) as (d & Ed & Hd & El). exists d. split; [rewrite nth_error_app1; [exact Ed|apply nth_error_Some; congruence]|]. split; [exact Hd|]. split; [|intros _; auto]. apply eq_xxn_ok; [apply b_len; exact Hi|apply LL, nth_In; exact Hd|exact El].
  - assert (X1 : isx i = true) by (unfold isx; rewrite Hm, E; reflexivity). pose proof (extra_room i Hi X1) as R. set (c := length (filter isl (seq 0 i))).
    assert (Lc : c <= length L). { rewrite <- lead_count. apply filter_seq_le. lia. }
    destruct (nth_error (L ++ repeat 0 (length lms - length L)) c) as [d|] eqn:Ed; [|apply nth_error_None in Ed; rewrite app_length, repeat_length in Ed; lia].
    assert (Hd : d < length lms). { apply nth_error_In in Ed. apply in_app_or in Ed as [Ed|Ed]; [apply div_list_in in Ed; apply Ed|apply repeat_spec in Ed; lia]. }
    exists d. split; [reflexivity|]. split; [exact Hd|]. split; [|discriminate]. destruct (eq_xxn nv (b i) (nth d lms [])) eqn:Q; [|reflexivity]. apply eq_xxn_ok in Q; [|apply b_len; exact Hi|apply LL, nth_In; exact Hd]. assert (isl i = true); [|congruence]. apply isl_iff. rewrite <- Q. apply nth_In. exact Hd.
Qed.
Lemma classify_ok : classify nv lmb lms = Some (length L, filter isx (seq 0 D)).
Proof.
  unfold classify. set (step := fun i st => _). assert (K : forall i, i <= D -> ofold step (seq 0 i) (0, []) = Some (length (filter isl (seq 0 i)), filter isx (seq 0 i))).
  { induction i as [|i IH]; intros Hi; [reflexivity|]. rewrite seq_S. assert (OA : forall (A B : Type) (f : A -> B -> option B) l l' y, ofold f (l ++ l') y = obind (ofold f l y) (fun z => ofold f l' z)). { intros A B f. induction l as [|a l IHl]; intros l' y; [reflexivity|]. cbn [app ofold]. destruct (f a y); cbn [obind]; [apply IHl|reflexivity]. }
    rewrite OA, IH by lia. cbn [obind ofold Nat.add]. unfold step at 1. rewrite !filter_app. cbn [filter]. cbn [fst snd]. pose proof (isl_mem i ltac:(lia)) as IM. assert (EX : isx i = negb (mem i) && negb (isl i)) by reflexivity. rewrite EX. destruct (member_xxn nv lmb i) as [q|] eqn:Em.
    - assert (M1 : mem i = true) by (unfold mem; rewrite Em; reflexivity). rewrite M1 in *. cbn [negb andb obind]. destruct (isl i); [discriminate (IM eq_refl)|]. rewrite !app_nil_r. reflexivity.
    - rewrite (nth_error_nth' lmb []) by lia. cbn [obind]. assert (M0 : mem i = false) by (unfold mem; rewrite Em; reflexivity). rewrite M0. destruct (div_at i ltac:(lia) M0) as (d & Ed & Hd & Eq & _). rewrite Ed. cbn [obind]. rewrite (nth_error_nth' lms [] Hd). cbn [obind]. rewrite Eq. destruct (isl i) eqn:E; cbn [negb andb].
      + rewrite app_length, app_nil_r. cbn [length obind]. rewrite Nat.add_1_r. reflexivity.
      + assert (Hb : In (b i) lmb) by (apply nth_In; lia). assert (Nx : ~ In (mmul x (b i)) lmb). { intros Q. apply (mem_iff i ltac:(lia)) in Q. congruence. }
        destruct (out_lead _ Hb Nx) as (l & Hl & Hdv & En). destruct (in_nth_m _ _ Hl) as (e & He & Ee).
        replace (existsb _ L) with true. 2:{ symmetry. apply existsb_exists. exists e. split; [apply div_list_in; split; [exact He|rewrite Ee; lia]|]. rewrite Ee. apply div_xxn_ok; [apply b_len; lia|apply LL; exact Hl|exact Hdv]. }
        assert (X1 : isx i = true) by (unfold isx; rewrite M0, E; reflexivity). pose proof (filter_seq_lt isx D i ltac:(lia) X1) as W. pose proof three_way as T. rewrite lead_count in T. destruct (Nat.ltb_spec (length (filter isx (seq 0 i))) (D - length L)) as [_|C]; [|lia]. cbn [obind]. rewrite app_nil_r. reflexivity. }
  rewrite K by lia. rewrite lead_count. reflexivity.
Qed.
End Stair.
