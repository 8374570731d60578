(** From rows of monomials to a matrix and back. *)
From Coq Require Import ZArith NArith Znumtheory Arith List Bool Lia Permutation Sorted.
From Verif Require Import LinSpec MonoSpec MonoModel MonoSpecProofs MonoCmpProofs GbSpec GbProofs LaModel LaSpec LaProofs LaRowProofs LaSysProofs LaProps F4Model UpdProofs F4Rows SymbProofs SelProofs.
Import ListNotations.
Open Scope Z_scope.

(** * Insertion sort *)
Lemma insert_sorted {A} (le : A -> A -> bool) (D : A -> Prop) x l :
  (forall a b, D a -> D b -> le a b = false -> le b a = true) -> (forall a b c, D a -> D b -> D c -> le a b = true -> le b c = true -> le a c = true) ->
  D x -> (forall y, In y l -> D y) -> ForallOrdPairs (fun a b => le a b = true) l -> ForallOrdPairs (fun a b => le a b = true) (insert_by le x l).
Proof.
  intros Tot Tr Dx Dl H. induction H as [|y l H1 H2 IH]; cbn [insert_by]; [repeat constructor|].
  destruct (le x y) eqn:E.
  - constructor; [|constructor; assumption]. constructor; [exact E|]. apply Forall_forall. intros z Hz. rewrite Forall_forall in H1. apply (Tr x y z); auto; [apply Dl; left; reflexivity|apply Dl; right; exact Hz].
  - constructor; [|apply IH; intros z Hz; apply Dl; right; exact Hz]. apply Forall_forall. intros z Hz. apply (Permutation_in _ (insert_perm le x l)) in Hz. destruct Hz as [<-|Hz]; [apply Tot; auto; apply Dl; left; reflexivity|]. rewrite Forall_forall in H1. auto.
Qed.
Lemma sort_sorted {A} (le : A -> A -> bool) (D : A -> Prop) l :
  (forall a b, D a -> D b -> le a b = false -> le b a = true) -> (forall a b c, D a -> D b -> D c -> le a b = true -> le b c = true -> le a c = true) ->
  (forall y, In y l -> D y) -> ForallOrdPairs (fun a b => le a b = true) (sort_by le l).
Proof.
  intros Tot Tr. induction l as [|x l IH]; intros Dl; [constructor|]. unfold sort_by in *. cbn [fold_right]. apply (insert_sorted le D); auto; [apply Dl; left; reflexivity| |apply IH; intros y Hy; apply Dl; right; exact Hy].
  intros y Hy. apply (Permutation_in _ (sort_perm le l)) in Hy. apply Dl. right. exact Hy.
Qed.
Lemma sorted_nat_unique : forall l1 l2 : list nat, ForallOrdPairs (fun a b => (a <= b)%nat) l1 -> ForallOrdPairs (fun a b => (a <= b)%nat) l2 -> Permutation l1 l2 -> l1 = l2.
Proof.
  induction l1 as [|x l1 IH]; intros l2 H1 H2 HP; [apply Permutation_nil in HP; congruence|]. destruct l2 as [|y l2]; [symmetry in HP; apply Permutation_nil in HP; discriminate|].
  inversion H1 as [|? ? A1 A2]; subst. inversion H2 as [|? ? B1 B2]; subst. rewrite Forall_forall in A1, B1.
  assert (E : x = y).
  { assert (Hx : In x (y :: l2)) by (eapply Permutation_in; [exact HP|left; reflexivity]). assert (Hy : In y (x :: l1)) by (eapply Permutation_in; [symmetry; exact HP|left; reflexivity]).
    destruct Hx as [|Hx]; [congruence|]. destruct Hy as [|Hy]; [congruence|]. specialize (A1 y Hy). specialize (B1 x Hx). lia. }
  subst y. f_equal. apply IH; auto. eapply Permutation_cons_inv; exact HP.
Qed.
Lemma FOP_map {A B} (f : A -> B) (R : B -> B -> Prop) l : ForallOrdPairs (fun a b => R (f a) (f b)) l -> ForallOrdPairs R (map f l).
Proof. induction 1 as [|a l H1 H2 IH]; cbn; constructor; auto. rewrite Forall_forall in *. intros y Hy. apply in_map_iff in Hy as (x & <- & Hx). auto. Qed.
Lemma FOP_nth {A} (R : A -> A -> Prop) l : ForallOrdPairs R l -> forall i j a b, (i < j)%nat -> nth_error l i = Some a -> nth_error l j = Some b -> R a b.
Proof.
  induction 1 as [|x l H1 H2 IH]; intros i j a b Hij Hi Hj; [destruct i; discriminate|]. destruct j as [|j]; [lia|]. cbn in Hj. destruct i as [|i]; cbn in Hi.
  - injection Hi as <-. rewrite Forall_forall in H1. apply H1. eapply nth_error_In; eassumption.
  - apply (IH i j); auto. lia.
Qed.
Lemma seq_FOP k : forall a, ForallOrdPairs (fun x y => (x <= y)%nat) (seq a k).
Proof. induction k as [|k IH]; intros a; cbn; constructor; [|apply IH]. apply Forall_forall. intros x Hx. apply in_seq in Hx. lia. Qed.

(** * Positions *)
Lemma pos_lt m l : In m l -> (pos m l < length l)%nat.
Proof. induction l as [|x l IH]; intros []; cbn [pos length]; destruct (mono_dec x m); try lia; [congruence|]. specialize (IH H). lia. Qed.
Lemma pos_nth m l : In m l -> nth_error l (pos m l) = Some m.
Proof. induction l as [|x l IH]; intros []; cbn [pos]; destruct (mono_dec x m) as [->|]; try reflexivity; [congruence|]. cbn. auto. Qed.
Lemma nth_pos l : NoDup l -> forall i m, nth_error l i = Some m -> pos m l = i.
Proof.
  intros N i m H. assert (I : In m l) by (eapply nth_error_In; eassumption). apply (proj1 (NoDup_nth_error l) N); [apply pos_lt; exact I|]. rewrite (pos_nth m l I). congruence.
Qed.
Lemma pos_app1 m l l' : In m l -> pos m (l ++ l') = pos m l.
Proof. induction l as [|x l IH]; intros []; cbn [pos app]; destruct (mono_dec x m); try reflexivity; [congruence|]. f_equal. auto. Qed.
Lemma pos_app2 m l l' : ~ In m l -> pos m (l ++ l') = (length l + pos m l')%nat.
Proof. induction l as [|x l IH]; intros H; cbn [pos app length]; [reflexivity|]. destruct (mono_dec x m) as [->|]; [destruct H; left; reflexivity|]. rewrite IH; [reflexivity|]. intros K. apply H. right. exact K. Qed.
Lemma pos_inj m m' l : In m l -> In m' l -> pos m l = pos m' l -> m = m'.
Proof. intros H H' E. apply pos_nth in H, H'. congruence. Qed.

Section Mat.
Variables (o : ordering) (p : Z).
Hypothesis Ho : o_ok o.
Hypothesis Hp : 1 < p.
Let nv := o_nv o.
Let lt := o_lt o.
Notation poly := (list (Z * mono)) (only parsing).
Lemma MO' : mono_order nv lt. Proof. apply o_lt_order. Qed.

Definition decreasing (l : list mono) : Prop := ForallOrdPairs (fun a b => lt b a) l.
Lemma msort_perm l : Permutation (msort o l) l.
Proof. apply sort_perm. Qed.
Lemma msort_dec l : NoDup l -> (forall m, In m l -> length m = nv) -> decreasing (msort o l).
Proof.
  intros N L. assert (S1 : ForallOrdPairs (fun a b => (0 <=? mcmp o a b) = true) (msort o l)).
  { apply (sort_sorted _ (fun m => length m = nv)); [| |exact L].
    - intros a b La Lb H. apply Z.leb_gt in H. apply Z.leb_le. destruct (mcmp_spec o a b Ho La Lb) as (A1 & _). destruct (mcmp_spec o b a Ho Lb La) as (_ & _ & B3). apply A1 in H. apply B3 in H. lia.
    - intros a b c La Lb Lc H1 H2. apply Z.leb_le in H1, H2. apply Z.leb_le. destruct (mcmp_spec o a b Ho La Lb) as (A1 & A2 & A3). destruct (mcmp_spec o b c Ho Lb Lc) as (B1 & B2 & B3). destruct (mcmp_spec o a c Ho La Lc) as (C1 & C2 & C3).
      destruct (Z.eq_dec (mcmp o a b) 0) as [E|E]; [apply A2 in E; subst b; exact H2|]. destruct (Z.eq_dec (mcmp o b c) 0) as [E'|E']; [apply B2 in E'; subst c; exact H1|].
      assert (L1 : lt b a) by (apply A3; lia). assert (L2 : lt c b) by (apply B3; lia). assert (L3 : lt c a) by (apply (lt_tr nv lt MO' c b a); auto). apply C3 in L3. lia. }
  assert (N' : NoDup (msort o l)) by (eapply Permutation_NoDup; [symmetry; apply msort_perm|exact N]).
  assert (L' : forall m, In m (msort o l) -> length m = nv) by (intros m Hm; apply L; eapply Permutation_in; [apply msort_perm|exact Hm]).
  unfold decreasing. induction S1 as [|a l' H1 H2 IH]; [constructor|]. inversion N'; subst. constructor; [|apply IH; auto; intros m Hm; apply L'; right; exact Hm].
  rewrite Forall_forall in *. intros b Hb. specialize (H1 b Hb). apply Z.leb_le in H1. assert (La : length a = nv) by (apply L'; left; reflexivity). assert (Lb : length b = nv) by (apply L'; right; exact Hb).
  destruct (mcmp_spec o a b Ho La Lb) as (A1 & A2 & A3). destruct (Z.eq_dec (mcmp o a b) 0) as [E|E]; [apply A2 in E; subst b; contradiction|]. apply A3. lia.
Qed.
Lemma dec_pos l a b : decreasing l -> (forall m, In m l -> length m = nv) -> In a l -> In b l -> lt b a -> (pos a l < pos b l)%nat.
Proof.
  intros HD HL Ha Hb Hlt. destruct (Nat.lt_trichotomy (pos a l) (pos b l)) as [H|[H|H]]; [exact H| |].
  - apply (pos_inj a b l Ha Hb) in H. subst b. exfalso. apply (lt_irr nv lt MO' _ Hlt).
  - exfalso. pose proof (FOP_nth _ _ HD _ _ _ _ H (pos_nth _ _ Hb) (pos_nth _ _ Ha)) as K. cbv beta in K. apply (lt_irr nv lt MO' a). apply (lt_tr nv lt MO' a b a); auto.
Qed.

(** * Vectors and polynomials *)
Section Cols.
Variable hcm : list mono.
Hypothesis HN : NoDup hcm.
Hypothesis HLen : forall m, In m hcm -> length m = nv.
Definition phi (v : vec) : pf := fun m => if mem m hcm then v (pos m hcm) else 0.
Lemma rv_to_row (f : poly) j m : (forall t : Z * mono, In t f -> In (snd t) hcm) -> nth_error hcm j = Some m -> rv (to_row hcm f) j = cf f m.
Proof.
  intros Hf Hj. induction f as [|t f IH]; [reflexivity|]. cbn [to_row map rv cf fst snd]. change (map _ f) with (to_row hcm f). rewrite IH by (intros s Hs; apply Hf; right; exact Hs).
  assert (It : In (snd t) hcm) by (apply Hf; left; reflexivity). destruct (Nat.eqb_spec (pos (snd t) hcm) j) as [E|E]; destruct (mono_dec (snd t) m) as [F|F]; try lia.
  - exfalso. apply F. rewrite <- E, (pos_nth _ _ It) in Hj. congruence.
  - exfalso. apply E. rewrite F. apply nth_pos; assumption.
Qed.
Lemma phi_to_row (f : poly) m : (forall t : Z * mono, In t f -> In (snd t) hcm) -> phi (rv (to_row hcm f)) m = cf f m.
Proof.
  intros Hf. unfold phi. destruct (mem m hcm) eqn:E.
  - apply mem_iff in E. apply rv_to_row; [exact Hf|apply pos_nth; exact E].
  - apply mem_false in E. symmetry. apply cf_not_in. intros t Ht K. apply E. rewrite <- K. apply Hf. exact Ht.
Qed.
Lemma of_row_ok (r : list (nat * Z)) : (forall t, In t r -> (fst t < length hcm)%nat) -> exists f, of_row hcm r = Ok f /\ Forall2 (fun t s => snd t = fst s /\ nth_error hcm (fst t) = Some (snd s)) r f.
Proof.
  induction r as [|t r IH]; intros H; [exists []; split; [reflexivity|constructor]|]. destruct IH as (f & E & F); [intros s Hs; apply H; right; exact Hs|].
  unfold of_row in *. cbn [rmap]. pose proof (H t (or_introl eq_refl)) as Lt. destruct (nth_error hcm (fst t)) as [m|] eqn:Em; [|apply nth_error_None in Em; lia]. cbn [of_opt rbind]. rewrite E. cbn [rbind]. exists ((snd t, m) :: f). split; [reflexivity|]. constructor; [auto|exact F].
Qed.
Lemma phi_of_row (r : list (nat * Z)) (f : poly) m : Forall2 (fun t s => snd t = fst s /\ nth_error hcm (fst t) = Some (snd s)) r f -> phi (rv r) m = cf f m.
Proof.
  intros F. unfold phi. destruct (mem m hcm) eqn:E.
  - apply mem_iff in E. induction F as [|t s r f [F1 F2] F IH]; [reflexivity|]. cbn [rv cf]. rewrite IH. destruct (Nat.eqb_spec (fst t) (pos m hcm)) as [G|G]; destruct (mono_dec (snd s) m) as [K|K]; try lia.
    + exfalso. apply K. rewrite G, (pos_nth _ _ E) in F2. congruence.
    + exfalso. apply G. rewrite <- K. symmetry. apply nth_pos; assumption.
  - apply mem_false in E. symmetry. apply cf_not_in. intros s Hs K. apply E. rewrite <- K. destruct (F2_in_r _ _ _ _ F Hs) as (t & _ & _ & Ht). eapply nth_error_In; exact Ht.
Qed.
Lemma phi_span (S0 : vec -> Prop) (T : pf -> Prop) v : (forall u, S0 u -> lspan nv p T (phi u)) -> span p S0 v -> lspan nv p T (phi v).
Proof.
  intros H Hv. induction Hv as [v Hv| |a u v H1 IH1 H2 IH2|u v H1 IH1 E]; [apply H; exact Hv| | |].
  - apply lspan_zero. intros m _. unfold phi, vzero, pzero. destruct (mem m hcm); reflexivity.
  - eapply lspan_ext; [apply (ls_lin nv p T a); [exact IH1|exact IH2]|]. intros m _. unfold phi. cbv beta. destruct (mem m hcm); ring.
  - eapply ls_eq; [exact IH1|]. intros m _. unfold phi. destruct (mem m hcm); [apply E|reflexivity].
Qed.
End Cols.

(** * The matrix of symbolic preprocessing *)
Section Round.
Variables (k : kern) (sht leads : list mono) (els : list elt) (lmps : list nat) (rr tr : list poly).
Hypothesis HP : prime p.
Hypothesis HK : in_class k p.
Hypothesis HE : els_ok nv lt p els.
Hypothesis Hnd : NoDup sht.
Hypothesis Hlen : forall m, In m sht -> length m = nv.
Hypothesis Hlnd : NoDup leads.
Hypothesis Hsub : forall m, In m leads -> In m sht.
Hypothesis Hperm : Permutation (map lmono rr) leads.
Hypothesis Hrr : forall r, In r rr -> mrow nv els r /\ forall t, In t r -> In (snd t) sht.
Hypothesis Htr : forall r, In r tr -> mrow nv els r /\ (forall t, In t r -> In (snd t) sht) /\ In (lmono r) leads.
Let L := fst (columns o sht leads).
Let R := snd (columns o sht leads).
Let hcm := L ++ R.
Lemma L_in m : In m L <-> In m leads.
Proof.
  unfold L, columns. cbn [fst]. split; intros H.
  - apply (Permutation_in _ (msort_perm _)) in H. apply filter_In in H as [_ H]. apply mem_iff. exact H.
  - apply (Permutation_in _ (Permutation_sym (msort_perm _))). apply filter_In. split; [auto|]. apply mem_iff. exact H.
Qed.
Lemma R_in m : In m R <-> In m sht /\ ~ In m leads.
Proof.
  unfold R, columns. cbn [snd]. split; intros H.
  - apply (Permutation_in _ (msort_perm _)) in H. apply filter_In in H as [H1 H2]. split; [exact H1|]. apply mem_false. apply negb_true_iff. exact H2.
  - apply (Permutation_in _ (Permutation_sym (msort_perm _))). apply filter_In. split; [apply H|]. apply negb_true_iff. apply mem_false. apply H.
Qed.
Lemma L_nd : NoDup L.
Proof. unfold L, columns. cbn [fst]. eapply Permutation_NoDup; [symmetry; apply msort_perm|]. apply NoDup_filter. exact Hnd. Qed.
Lemma R_nd : NoDup R.
Proof. unfold R, columns. cbn [snd]. eapply Permutation_NoDup; [symmetry; apply msort_perm|]. apply NoDup_filter. exact Hnd. Qed.
Lemma L_dec : decreasing L.
Proof. unfold L, columns. cbn [fst]. apply msort_dec; [apply NoDup_filter; exact Hnd|]. intros m H. apply filter_In in H as [H _]. auto. Qed.
Lemma R_dec : decreasing R.
Proof. unfold R, columns. cbn [snd]. apply msort_dec; [apply NoDup_filter; exact Hnd|]. intros m H. apply filter_In in H as [H _]. auto. Qed.
Lemma L_len m : In m L -> length m = nv. Proof. intros H. apply Hlen, Hsub, L_in. exact H. Qed.
Lemma R_len m : In m R -> length m = nv. Proof. intros H. apply Hlen. apply R_in. exact H. Qed.
Lemma hcm_in m : In m hcm <-> In m sht.
Proof.
  unfold hcm. rewrite in_app_iff, L_in, R_in. destruct (in_dec mono_dec m leads) as [H|H]; [|tauto]. split; [intros _; auto|auto].
Qed.
Lemma hcm_nd : NoDup hcm.
Proof.
  unfold hcm. pose proof L_nd as A. pose proof R_nd as B. assert (C : forall m, In m L -> ~ In m R) by (intros m H1 H2; apply L_in in H1; apply R_in in H2; tauto).
  revert A C. generalize L. intros l; induction l as [|x l IH]; cbn; intros A C; [exact B|]. inversion A; subst. constructor; [|apply IH; auto]. intros K. apply in_app_or in K as [K|K]; [contradiction|]. apply (C x); auto.
Qed.
Lemma col_lt m m' : In m leads -> In m' sht -> lt m' m -> (pos m hcm < pos m' hcm)%nat.
Proof.
  intros Hm Hm' Hlt. pose proof (proj2 (L_in m) Hm) as Im. unfold hcm. rewrite (pos_app1 m) by exact Im. destruct (in_dec mono_dec m' L) as [I'|N'].
  - rewrite (pos_app1 m') by exact I'. apply dec_pos; auto; [apply L_dec|apply L_len].
  - rewrite (pos_app2 m') by exact N'. pose proof (pos_lt m L Im). lia.
Qed.
Lemma col_left m : In m leads -> (pos m hcm < length L)%nat.
Proof. intros Hm. pose proof (proj2 (L_in m) Hm) as Im. unfold hcm. rewrite pos_app1 by exact Im. apply pos_lt. exact Im. Qed.

Lemma row_pivot f : mrow nv els f -> (forall t, In t f -> In (snd t) sht) -> In (lmono f) leads -> pivot_row p (length hcm) (pos (lmono f) hcm) (to_row hcm f).
Proof.
  intros Hr Hin Hl. pose proof (mrow_mpoly nv lt p MO' els f HE Hr) as Mf. assert (Hin' : forall t, In t f -> In (snd t) hcm) by (intros t Ht; apply hcm_in; auto).
  pose proof (sp_nodup nv lt p MO' f (proj1 Mf)) as ND. split; [|split; [|split]].
  - clear - ND Hin'. induction f as [|t f IH]; [constructor|]. cbn [to_row map fst]. cbn [map] in ND. inversion ND; subst. constructor.
    + intros K. change (map _ (map _ f)) with (map fst (to_row hcm f)) in K. apply in_map_iff in K as ((c & x) & E & K). unfold to_row in K. apply in_map_iff in K as (s & E' & Hs). cbn in E. injection E' as E1 E2. apply H1. rewrite E in E1. apply pos_inj in E1; [|apply Hin'; right; exact Hs|apply Hin'; left; reflexivity]. rewrite <- E1. apply in_map. exact Hs.
    + apply IH; [intros s Hs; apply Hin'; right; exact Hs|assumption].
  - intros t Ht. unfold to_row in Ht. apply in_map_iff in Ht as (s & <- & Hs). cbn [snd]. destruct (mpoly_terms nv lt p f s Mf Hs). lia.
  - intros t Ht. unfold to_row in Ht. apply in_map_iff in Ht as (s & <- & Hs). cbn [fst]. apply pos_lt. auto.
  - destruct Mf as (Sf & l & r & ->). cbn [to_row map fst snd lmono]. eexists. split; [reflexivity|]. intros t Ht. apply in_map_iff in Ht as (s & <- & Hs). cbn [fst]. cbn [lmono snd] in Hl. apply col_lt; [exact Hl|apply Hin; right; exact Hs|]. apply (sp_tail nv lt p (1, l) r Sf s Hs).
Qed.
Lemma row_head f : mrow nv els f -> hcol (to_row hcm f) = pos (lmono f) hcm.
Proof. intros Hr. destruct (mrow_mpoly nv lt p MO' els f HE Hr) as (_ & l & r & ->). reflexivity. Qed.
Lemma heads_seq : map hcol (rows_dec (map (to_row hcm) rr)) = seq 0 (length L).
Proof.
  apply sorted_nat_unique.
  - apply FOP_map. assert (S1 : ForallOrdPairs (fun a b => (hcol a <=? hcol b)%nat = true) (rows_dec (map (to_row hcm) rr))).
    { apply (sort_sorted _ (fun _ => True)); auto; [intros a b _ _ H; apply Nat.leb_gt in H; apply Nat.leb_le; lia|intros a b c _ _ _ H1 H2; apply Nat.leb_le in H1, H2; apply Nat.leb_le; lia]. }
    clear - S1. induction S1 as [|a l H1 H2 IH]; constructor; [|exact IH]. rewrite Forall_forall in *. intros b Hb. apply Nat.leb_le. auto.
  - apply seq_FOP.
  - unfold rows_dec. rewrite sort_perm. rewrite map_map. rewrite (map_ext_in _ (fun f => pos (lmono f) hcm)) by (intros f Hf; apply row_head; apply Hrr; exact Hf).
    rewrite <- (map_map (lmono) (fun m => pos m hcm)). rewrite Hperm. transitivity (map (fun m => pos m hcm) L).
    + apply Permutation_map. apply NoDup_Permutation; [exact Hlnd|apply L_nd|]. intros m. symmetry. apply L_in.
    + replace (map (fun m => pos m hcm) L) with (seq 0 (length L)); [reflexivity|]. apply (nth_ext _ _ O O); [rewrite map_length, seq_length; reflexivity|]. intros n Hn. rewrite seq_length in Hn. rewrite seq_nth by exact Hn. cbn [Nat.add].
      rewrite (nth_indep _ O (pos [] hcm)) by (rewrite map_length; exact Hn). rewrite (map_nth (fun m => pos m hcm)). symmetry. apply nth_pos; [apply hcm_nd|]. unfold hcm. rewrite nth_error_app1 by exact Hn. apply nth_error_nth'. exact Hn.
Qed.
Lemma mat_ok : matrix_ok p (length L) (length hcm) (nth_error (rows_dec (map (to_row hcm) rr))) (map (to_row hcm) tr).
Proof.
  assert (Len : length (rows_dec (map (to_row hcm) rr)) = length L) by (rewrite <- (map_length hcol), heads_seq, seq_length; reflexivity).
  split; [unfold hcm; rewrite app_length; lia|]. split; [|split].
  - intros c. rewrite nth_error_Some, Len. reflexivity.
  - intros c r Hc. assert (Hh : hcol r = c).
    { assert (nth_error (map hcol (rows_dec (map (to_row hcm) rr))) c = Some (hcol r)) by (rewrite nth_error_map, Hc; reflexivity). rewrite heads_seq in H. assert (Lc : (c < length L)%nat) by (rewrite <- Len; apply nth_error_Some; congruence).
      rewrite (nth_error_nth' _ O) in H by (rewrite seq_length; exact Lc). rewrite seq_nth in H by exact Lc. injection H as H. lia. }
    apply nth_error_In in Hc. apply (Permutation_in _ (sort_perm _ _)) in Hc. apply in_map_iff in Hc as (f & <- & Hf). destruct (Hrr f Hf) as [H1 H2]. rewrite <- Hh, row_head by exact H1. apply row_pivot; auto. apply (Permutation_in _ Hperm). apply in_map. exact Hf.
  - intros r Hr. apply in_map_iff in Hr as (f & <- & Hf). destruct (Htr f Hf) as (H1 & H2 & H3). destruct (row_pivot f H1 H2 H3) as (A1 & A2 & A3 & r' & E & A4). split; [exact A1|]. split; [exact A2|]. split; [exact A3|]. rewrite E. eexists _, _. split; [reflexivity|]. cbn [fst]. intros t [<-|Ht]; [cbn; lia|]. specialize (A4 t Ht). lia.
Qed.

Record new_rows (news : list poly) : Prop := {
  nr_mpoly : forall f, In f news -> mpoly nv lt p f;
  nr_mon : forall f t, In f news -> In t f -> In (snd t) sht /\ ~ In (snd t) leads;
  nr_nd : NoDup (map lmono news);
  nr_ideal : forall f, In f news -> lspan nv p (pfs (rr ++ tr)) (cf f);
  nr_span : forall f, In f (rr ++ tr) -> lspan nv p (pfs (rr ++ news)) (cf f) }.

Lemma gens_phi (l : list (list (nat * Z))) (fs : list poly) : Forall2 (fun r f => forall m, phi hcm (rv r) m = cf f m) l fs ->
  forall u, gens (nth_error (rows_dec (map (to_row hcm) rr))) l u -> lspan nv p (pfs (rr ++ fs)) (phi hcm u).
Proof.
  intros F u [(c & r & Hc & ->)|(r & Hr & ->)].
  - apply nth_error_In in Hc. apply (Permutation_in _ (sort_perm _ _)) in Hc. apply in_map_iff in Hc as (f & <- & Hf). eapply lspan_ext; [apply ls_in; exists f; split; [apply in_or_app; left; exact Hf|reflexivity]|].
    intros m _. apply phi_to_row; [apply hcm_nd|]. intros t Ht. apply hcm_in. apply (Hrr f Hf). exact Ht.
  - destruct (F2_in_l _ _ _ _ F Hr) as (f & Hf & E). eapply lspan_ext; [apply ls_in; exists f; split; [apply in_or_app; right; exact Hf|reflexivity]|]. intros m _. apply E.
Qed.
Lemma gens_row f : In f (rr ++ tr) -> gens (nth_error (rows_dec (map (to_row hcm) rr))) (map (to_row hcm) tr) (rv (to_row hcm f)) /\ forall t, In t f -> In (snd t) hcm.
Proof.
  intros Hf. apply in_app_or in Hf as [Hf|Hf].
  - split; [|intros t Ht; apply hcm_in; apply (Hrr f Hf); exact Ht]. left. assert (Hin : In (to_row hcm f) (rows_dec (map (to_row hcm) rr))) by (apply (Permutation_in _ (Permutation_sym (sort_perm _ _))); apply in_map; exact Hf). apply In_nth_error in Hin as (c & Hc). exists c, (to_row hcm f). auto.
  - split; [|intros t Ht; apply hcm_in; apply (Htr f Hf); exact Ht]. right. exists (to_row hcm f). split; [apply in_map; exact Hf|reflexivity].
Qed.

Theorem round_rows_ok sched : (forall t, (t < length tr)%nat -> ((length hcm + 2) * (length hcm + 3) <= count_occ Nat.eq_dec sched t)%nat) -> columns_ok k p (length hcm) ->
  exists l news, echelon k p (length L) (length hcm) (nth_error (rows_dec (map (to_row hcm) rr))) (map (to_row hcm) tr) sched = Some l /\ rmap (of_row hcm) (rev l) = Ok news /\ new_rows news.
Proof.
  intros HS HC. destruct (C20_echelon k p (length L) (length hcm) _ (map (to_row hcm) tr) sched HP HK HC mat_ok) as (l & El & SS & _ & HR & NDl); [rewrite map_length; exact HS|].
  exists l. set (nr := fun (r : list (nat * Z)) (f : poly) => Forall2 (fun t s => snd t = fst s /\ nth_error hcm (fst t) = Some (snd s)) r f).
  assert (Cv : exists news, rmap (of_row hcm) (rev l) = Ok news /\ Forall2 nr (rev l) news).
  { assert (Cr : forall r, In r (rev l) -> exists f, of_row hcm r = Ok f /\ nr r f) by (intros r Hr; apply in_rev in Hr; destruct (HR r Hr) as (_ & c & _ & PR & _); apply of_row_ok; apply PR).
    clear - Cr. induction (rev l) as [|r l' IH]; [exists []; split; [reflexivity|constructor]|]. destruct (Cr r (or_introl eq_refl)) as (f & E & F). destruct IH as (fs & E' & F'); [intros x Hx; apply Cr; right; exact Hx|]. cbn [rmap]. rewrite E. cbn [rbind]. rewrite E'. cbn [rbind]. exists (f :: fs). split; [reflexivity|constructor; assumption]. }
  destruct Cv as (news & En & FN). exists news. split; [exact El|]. split; [exact En|].
  assert (Fphi : forall r f, nr r f -> forall m, phi hcm (rv r) m = cf f m) by (intros r f H m; apply phi_of_row; [apply hcm_nd|exact H]).
  assert (Row : forall r f, In r l -> nr r f -> mpoly nv lt p f /\ (forall t, In t f -> In (snd t) R) /\ exists c, pivot_row p (length hcm) c r /\ nth_error hcm c = Some (lmono f) /\ forall r', In r' l -> r' <> r -> rv r' c = 0).
  { intros r f Hr F. destruct (HR r Hr) as ((SC & CC) & c & Hc & PR & HZ). pose proof PR as (A1 & A2 & A3 & r1 & Er & A4).
    assert (Mon : forall t, In t f -> exists s, In s r /\ (length L <= fst s)%nat /\ nth_error hcm (fst s) = Some (snd t) /\ fst t = snd s).
    { intros t Ht. destruct (F2_in_r _ _ _ _ F Ht) as (s & Hs & E1 & E2). exists s. split; [exact Hs|]. split; [|auto]. rewrite Er in Hs. destruct Hs as [<-|Hs]; [exact Hc|]. specialize (A4 s Hs). lia. }
    assert (InR : forall j m, (length L <= j)%nat -> nth_error hcm j = Some m -> nth_error R (j - length L) = Some m) by (intros j m Hj E; unfold hcm in E; rewrite nth_error_app2 in E by exact Hj; exact E).
    split; [|split].
    - split.
      + split; [rewrite Er in F; inversion F; discriminate|]. split.
        * intros t Ht. destruct (Mon t Ht) as (s & Hs & Hl & E1 & E2). rewrite E2. split; [apply CC; exact Hs|]. apply R_len. eapply nth_error_In. apply (InR _ _ Hl E1).
        * intros i j s t Hi Hj Hij. assert (Nth : forall i s, nth_error f i = Some s -> exists s0, nth_error r i = Some s0 /\ nth_error hcm (fst s0) = Some (snd s)).
          { clear - F. unfold nr in F. induction F as [|x y r f [F1 F2] F IH]; intros i s Hi; [destruct i; discriminate|]. destruct i as [|i]; [injection Hi as <-; exists x; auto|]. apply IH. exact Hi. }
          destruct (Nth i s Hi) as (s0 & Hs0 & Es). destruct (Nth j t Hj) as (t0 & Ht0 & Et). assert (Lst : (fst s0 < fst t0)%nat).
          { clear - SC Hs0 Ht0 Hij. revert i j Hs0 Ht0 Hij. induction r as [|x r IH]; intros i j Hs0 Ht0 Hij; [destruct i; discriminate|]. cbn [map] in SC. inversion SC as [|? ? S1 S2]; subst. destruct j as [|j]; [lia|]. destruct i as [|i]; cbn in Hs0, Ht0.
            - injection Hs0 as <-. rewrite Forall_forall in S2. apply S2. apply in_map. eapply nth_error_In; eassumption.
            - apply (IH S1 i j); auto. lia. }
          assert (Ge : forall x, In x r -> (length L <= fst x)%nat) by (intros x Hx; rewrite Er in Hx; destruct Hx as [<-|Hx]; [exact Hc|specialize (A4 x Hx); lia]).
          pose proof (Ge s0 (nth_error_In _ _ Hs0)) as G1. pose proof (Ge t0 (nth_error_In _ _ Ht0)) as G2. apply (FOP_nth _ _ R_dec (fst s0 - length L) (fst t0 - length L)); [lia|apply InR; assumption|apply InR; assumption].
      + rewrite Er in F. inversion F as [|x y ? ? [F1 F2] F']; subst. cbn in F1. destruct y as [y1 y2]. cbn in F1. subst y1. eexists _, _. reflexivity.
    - intros t Ht. destruct (Mon t Ht) as (s & Hs & Hl & E1 & E2). eapply nth_error_In. apply (InR _ _ Hl E1).
    - exists c. split; [exact PR|]. split; [|exact HZ]. rewrite Er in F. inversion F as [|x y ? ? [F1 F2] F']; subst. cbn in F2 |- *. exact F2. }
  assert (Each : forall f, In f news -> exists r, In r l /\ nr r f) by (intros f Hf; destruct (F2_in_r _ _ _ _ FN Hf) as (r & Hr & F); apply in_rev in Hr; eauto).
  constructor.
  - intros f Hf. destruct (Each f Hf) as (r & Hr & F). apply (Row r f Hr F).
  - intros f t Hf Ht. destruct (Each f Hf) as (r & Hr & F). apply R_in. apply (Row r f Hr F). exact Ht.
  - assert (NDr : NoDup (rev l)) by (apply NoDup_rev; exact NDl). assert (Inr : forall r, In r (rev l) -> In r l) by (intros r Hr; apply in_rev; exact Hr). pose proof hcm_nd as HN0. clear - HN0 FN NDr Inr Row. induction FN as [|r f rs fs F FN IH]; [constructor|]. inversion NDr; subst. cbn [map]. constructor; [|apply IH; auto; intros x Hx; apply Inr; right; exact Hx].
    intros K. apply in_map_iff in K as (g & Eg & Hg). destruct (F2_in_r _ _ _ _ FN Hg) as (s & Hs & G). destruct (Row r f (Inr r (or_introl eq_refl)) F) as (_ & _ & c & (_ & _ & _ & r1 & Er & Hr1) & Hc & HZ). destruct (Row s g (Inr s (or_intror Hs)) G) as (_ & _ & d & (_ & _ & _ & s1 & Es & Hs1) & Hd & _).
    assert (c = d) by (rewrite <- (nth_pos _ HN0 _ _ Hc), <- (nth_pos _ HN0 _ _ Hd); congruence). subst d. assert (s <> r) by (intros ->; contradiction). specialize (HZ s (Inr s (or_intror Hs)) H). rewrite Es in HZ. cbn [rv fst snd] in HZ. rewrite Nat.eqb_refl in HZ.
    assert (Z1 : rv s1 c = 0) by (clear - Hs1; induction s1 as [|x s1 IH]; [reflexivity|]; cbn [rv]; rewrite IH by (intros t Ht; apply Hs1; right; exact Ht); specialize (Hs1 x (or_introl eq_refl)); destruct (Nat.eqb_spec (fst x) c); lia). lia.
  - intros f Hf. destruct (Each f Hf) as (r & Hr & F). assert (K : span p (gens (nth_error (rows_dec (map (to_row hcm) rr))) (map (to_row hcm) tr)) (rv r)) by (apply SS; apply span_in; right; exists r; auto).
    eapply lspan_ext; [eapply (phi_span hcm); [|exact K]|intros m _; symmetry; apply Fphi; exact F]. apply gens_phi. clear - Htr Hnd Hsub Hlen. assert (Hin : forall f, In f tr -> forall t, In t f -> In (snd t) hcm) by (intros f Hf t Ht; apply hcm_in; apply (Htr f Hf); exact Ht). induction tr as [|f fs IH]; cbn [map]; constructor; [|apply IH; auto].
    + intros m. apply phi_to_row; [apply hcm_nd|]. apply Hin. left. reflexivity.
    + intros r Hr. apply Htr. right. exact Hr.
    + intros x Hx. apply Hin. right. exact Hx.
  - intros f Hf. destruct (gens_row f Hf) as [G1 G2]. assert (K : span p (gens (nth_error (rows_dec (map (to_row hcm) rr))) l) (rv (to_row hcm f))) by (apply SS; apply span_in; exact G1).
    assert (Fl : Forall2 (fun r g => forall m, phi hcm (rv r) m = cf g m) l (rev news)).
    { assert (FN' : Forall2 nr l (rev news)) by (rewrite <- (rev_involutive l); clear - FN; induction FN as [|r g rs gs F FN IH]; cbn; [constructor|]; apply Forall2_app; [exact IH|constructor; [exact F|constructor]]). eapply F2_imp; [|exact FN']. intros r g _ H. apply Fphi. exact H. }
    eapply lspan_ext; [eapply lspan_mono; [|eapply (phi_span hcm); [apply gens_phi; exact Fl|exact K]]|intros m _; symmetry; apply phi_to_row; [apply hcm_nd|exact G2]].
    intros h (g & Hg & ->). apply ls_in. exists g. split; [|reflexivity]. apply in_app_or in Hg as [Hg|Hg]; apply in_or_app; [left; exact Hg|right; apply in_rev; exact Hg].
Qed.
(** order of the new elements and mutual reduction *)
Lemma FOP_rev {A} (P : A -> A -> Prop) l : ForallOrdPairs P l -> ForallOrdPairs (fun a b => P b a) (rev l).
Proof.
  induction 1 as [|a l H1 H2 IH]; [constructor|]. cbn [rev]. clear H2. rewrite Forall_forall in H1. assert (K : forall x, In x (rev l) -> P a x) by (intros x Hx; apply H1; apply in_rev; exact Hx).
  revert IH K. generalize (rev l). intros l'. induction l' as [|b l' IH']; intros H2 K; cbn [app]; [constructor; constructor|]. inversion H2 as [|? ? F1 F2]; subst. constructor; [|apply IH'; auto; intros x Hx; apply K; right; exact Hx].
  apply Forall_forall. intros x Hx. apply in_app_or in Hx as [Hx|[<-|[]]]; [rewrite Forall_forall in F1; auto|apply K; left; reflexivity].
Qed.
Lemma rows_desc_sorted ncl (Q : nat -> option (list (nat * Z))) n : (forall c r, Q c = Some r -> hcol r = c) ->
  ForallOrdPairs (fun a b => (hcol b < hcol a)%nat) (rows_desc ncl Q n) /\ forall r, In r (rows_desc ncl Q n) -> Q (hcol r) = Some r /\ (ncl <= hcol r < ncl + n)%nat.
Proof.
  intros HQ. induction n as [|n [IH1 IH2]]; cbn [rows_desc]; [split; [constructor|intros r []]|]. destruct (Q (ncl + n)%nat) as [r|] eqn:E.
  - pose proof (HQ _ _ E) as Hr. split.
    + constructor; [|exact IH1]. apply Forall_forall. intros x Hx. destruct (IH2 x Hx). lia.
    + intros x [<-|Hx]; [rewrite Hr; split; [exact E|lia]|]. destruct (IH2 x Hx). split; [assumption|lia].
  - split; [exact IH1|]. intros x Hx. destruct (IH2 x Hx). split; [assumption|lia].
Qed.
Theorem round_rows_more sched l news : echelon k p (length L) (length hcm) (nth_error (rows_dec (map (to_row hcm) rr))) (map (to_row hcm) tr) sched = Some l -> columns_ok k p (length hcm) ->
  rmap (of_row hcm) (rev l) = Ok news ->
  length news = length l /\ ForallOrdPairs (fun f g => lt (lmono g) (lmono f)) news /\
  (forall f g, In f news -> In g news -> f <> g -> forall t, In t f -> snd t <> lmono g).
Proof.
  intros El HC En. pose proof mat_ok as HM. unfold echelon in El. destruct (sys_run k p (length L) (length hcm) sched _) as [st|] eqn:Est; cbn [ModInvModel.obind] in El; [|discriminate]. destruct (forallb finished (sh_rows st)) eqn:Ef; [|discriminate].
  destruct (echelon_core k p _ _ _ _ sched HP (class_kern k p HK) (columns_room k p _ HC) HM st Est Ef) as (Q & EQ & (Q1 & Q2) & Q3 & _). rewrite EQ in El. injection El as <-.
  assert (Hh : forall c r, Q c = Some r -> hcol r = c) by (intros c r E; destruct (Q1 c r E) as (_ & _ & _ & r' & -> & _); reflexivity).
  destruct (rows_desc_sorted (length L) Q (length hcm - length L) Hh) as [S1 S2]. set (l := rows_desc (length L) Q (length hcm - length L)) in *.
  assert (F : Forall2 (fun r f => Forall2 (fun t s => snd t = fst s /\ nth_error hcm (fst t) = Some (snd s)) r f) (rev l) news).
  { assert (Cr : forall r, In r (rev l) -> forall t, In t r -> (fst t < length hcm)%nat) by (intros r Hr; apply in_rev in Hr; destruct (S2 r Hr) as [E _]; apply (Q1 _ _ E)).
    revert news En Cr. generalize (rev l). intros l'. induction l' as [|r l' IH]; intros news En Cr; cbn [rmap] in En; [injection En as <-; constructor|]. destruct (of_row_ok hcm r (Cr r (or_introl eq_refl))) as (f & E1 & F1). rewrite E1 in En. cbn [rbind] in En. destruct (rmap (of_row hcm) l') as [fs| | |]; cbn [rbind] in En; try discriminate. injection En as <-. constructor; [exact F1|]. apply IH; [reflexivity|]. intros x Hx. apply Cr. right. exact Hx. }
  assert (Ld : forall r f, In r (rev l) -> Forall2 (fun t s => snd t = fst s /\ nth_error hcm (fst t) = Some (snd s)) r f -> nth_error hcm (hcol r) = Some (lmono f) /\ (length L <= hcol r)%nat).
  { intros r f Hr Fr. apply in_rev in Hr. destruct (S2 r Hr) as [E B]. destruct (Q1 _ _ E) as (_ & _ & _ & r' & Er & _). split; [|lia]. rewrite Er in Fr. inversion Fr as [|x y ? ? [F1 F2] F']; subst. rewrite Er. cbn [hcol fst lmono] in *. exact F2. }
  assert (InR : forall j m, (length L <= j)%nat -> nth_error hcm j = Some m -> nth_error R (j - length L) = Some m) by (intros j m Hj E; unfold hcm in E; rewrite nth_error_app2 in E by exact Hj; exact E).
  split; [rewrite <- (F2_len _ _ _ F), rev_length; reflexivity|]. split.
  - pose proof (FOP_rev _ _ S1) as S3. pose proof R_dec as RD. clear - F Ld S3 InR RD. assert (Ld' := Ld). clear Ld. induction F as [|r f rs fs Fr F IH]; [constructor|]. inversion S3 as [|? ? H1 H2]; subst. constructor; [|apply IH; auto; intros x y Hx; apply Ld'; right; exact Hx].
    apply Forall_forall. intros g Hg. destruct (F2_in_r _ _ _ _ F Hg) as (s & Hs & Fs). rewrite Forall_forall in H1. specialize (H1 s Hs). cbv beta in H1. destruct (Ld' r f (or_introl eq_refl) Fr) as [A1 A2]. destruct (Ld' s g (or_intror Hs) Fs) as [B1 B2].
    apply (FOP_nth _ _ RD (hcol r - length L) (hcol s - length L)); [lia|apply InR; assumption|apply InR; assumption].
  - intros f g Hf Hg N t Ht E. destruct (F2_in_r _ _ _ _ F Hf) as (r & Hr & Fr). destruct (F2_in_r _ _ _ _ F Hg) as (s & Hs & Fs). destruct (Ld s g Hs Fs) as [B1 B2]. destruct (F2_in_r _ _ _ _ Fr Ht) as (u & Hu & Eu1 & Eu2).
    assert (Ec : fst u = hcol s) by (rewrite <- (nth_pos _ hcm_nd _ _ Eu2), <- (nth_pos _ hcm_nd _ _ B1); congruence).
    pose proof Hr as Hr'. apply in_rev in Hr. apply in_rev in Hs. destruct (S2 r Hr) as [Er _]. destruct (S2 s Hs) as [Esx _]. destruct (Q2 _ _ Er) as [(SC & CC) HZ].
    assert (Ns : hcol s <> hcol r). { intros K. rewrite K in Esx. assert (s = r) by congruence. subst s. apply N. clear - Fr Fs. revert g Fs. induction Fr as [|x y r f [A1 A2] Fr IH]; intros g Fs; inversion Fs as [|? y' ? g' [B1 B2] F']; subst; [reflexivity|]. f_equal; [|auto]. destruct y, y'; cbn in *. congruence. }
    specialize (HZ (hcol s) Ns ltac:(congruence)). rewrite <- Ec in HZ. rewrite (rv_in r u (sorted_nodup _ SC) Hu) in HZ. specialize (CC u Hu). lia.
Qed.
End Round.
End Mat.
