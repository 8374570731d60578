(** Trace construction, learning as ordinary run, application of a trace. *)
From Coq Require Import ZArith NArith Arith List Bool Lia Permutation Sorted Znumtheory.
From Verif Require Import LinSpec MonoSpec MonoModel MonoSpecProofs MonoCmpProofs GbSpec GbProofs GbIdeal LaModel LaSpec LaProofs LaRowProofs LaSysProofs LaProps F4Model UpdProofs UpdProps F4Rows SymbProofs SelProofs MatProofs RoundProofs FinalProofs F4Props TraceModel TraceLaProofs.
Import ListNotations.
Open Scope Z_scope.

(** * Compression of the trace *)
Definition dtag : nat * mono := (O, []).
Lemma kept_red_ok reds : forall rr i, (forall j, (j < i + length rr)%nat -> (j / 32 < length reds)%nat) ->
  kept_red reds i rr = Some (map (fun j => nth (j - i) rr dtag) (filter (bit reds) (seq i (length rr)))).
Proof.
  induction rr as [|t rr IH]; intros i H; cbn [kept_red length seq filter]; [reflexivity|]. rewrite (get_bit_ok reds i) by (apply H; cbn; lia). rewrite IH by (intros j Hj; apply H; cbn; lia).
  assert (E : map (fun j => nth (j - S i) rr dtag) (filter (bit reds) (seq (S i) (length rr))) = map (fun j => nth (j - i) (t :: rr) dtag) (filter (bit reds) (seq (S i) (length rr)))).
  { apply map_ext_in. intros j Hj. apply filter_In in Hj as [Hj _]. apply in_seq in Hj. replace (j - i)%nat with (S (j - S i))%nat by lia. reflexivity. }
  rewrite E. destruct (bit reds i); cbn [N.eqb]; [|reflexivity]. cbn [map]. rewrite Nat.sub_diag. reflexivity.
Qed.
Lemma squeeze_ok reds w : forall cnt i ctr acc, (forall j, (j < i + cnt)%nat -> (j / 32 < length reds)%nat /\ (j / 32 < length w)%nat) ->
  (forall j, (j < ctr + length (filter (bit reds) (seq i cnt)))%nat -> (j / 32 < length acc)%nat) -> (forall j, (ctr <= j)%nat -> bit acc j = false) ->
  exists a, squeeze reds w cnt i ctr acc = Some a /\ length a = length acc /\ (forall j, (j < ctr)%nat -> bit a j = bit acc j) /\
    forall q, bit a (ctr + q) = match nth_error (filter (bit reds) (seq i cnt)) q with Some x => bit w x | None => false end.
Proof.
  induction cnt as [|cnt IH]; intros i ctr acc H1 H2 H3; cbn [squeeze seq filter].
  - exists acc. split; [reflexivity|]. split; [reflexivity|]. split; [auto|]. intros q. destruct q; cbn; apply H3; lia.
  - rewrite (get_bit_ok reds i) by (apply H1; lia). destruct (bit reds i) eqn:Eb; cbn [N.eqb].
    + rewrite (get_bit_ok w i) by (apply H1; lia). cbn [seq filter] in H2. rewrite Eb in H2. cbn [length] in H2. destruct (put_bit_ok acc ctr (bit w i) (H2 ctr ltac:(lia))) as (a1 & -> & L1 & V1).
      destruct (IH (S i) (S ctr) a1) as (a & Ea & La & Va & Wa).
      * intros j Hj. apply H1. lia.
      * intros j Hj. rewrite L1. apply H2. lia.
      * intros j Hj. rewrite V1, H3 by lia. destruct (Nat.eqb_spec j ctr); [lia|reflexivity].
      * exists a. split; [exact Ea|]. split; [lia|]. split.
        -- intros j Hj. rewrite Va, V1 by lia. destruct (Nat.eqb_spec j ctr); [lia|]. apply orb_false_r.
        -- intros [|q]; cbn [nth_error].
           ++ rewrite Nat.add_0_r, Va, V1, H3, Nat.eqb_refl by lia. reflexivity.
           ++ rewrite <- Wa. f_equal. lia.
    + cbn [seq filter] in H2. rewrite Eb in H2. destruct (IH (S i) ctr acc) as (a & Ea & R); auto.
      * intros j Hj. apply H1. lia.
      * exists a. split; [exact Ea|exact R].
Qed.
Lemma omap_ok {A B} (f : A -> option B) (P : A -> B -> Prop) l : (forall a, In a l -> exists b, f a = Some b /\ P a b) -> exists l', omap f l = Some l' /\ Forall2 P l l'.
Proof.
  induction l as [|a l IH]; intros H; cbn [omap]; [exists []; split; [reflexivity|constructor]|]. destruct (H a (or_introl eq_refl)) as (b & -> & Hb). destruct IH as (l' & -> & F); [intros x Hx; apply H; right; exact Hx|]. exists (b :: l'). split; [reflexivity|constructor; assumption].
Qed.

Lemma F2_map_l {A B C} (f : A -> B) (P : B -> C -> Prop) l : forall l', Forall2 P (map f l) l' -> Forall2 (fun a c => P (f a) c) l l'.
Proof. induction l as [|a l IH]; intros l' H; inversion H; subst; constructor; auto. Qed.

(** the rows that gave a new element, with their tags and bits *)
Definition kept_rows (tr : list (nat * mono)) (rows : list (rstate * list N)) := filter (fun x => is_piv (fst (snd x))) (combine tr rows).
(** the reducers used by one of them *)
Definition used_idx (kept : list ((nat * mono) * (rstate * list N))) (n : nat) : list nat := filter (fun i => existsb (fun x => bit (snd (snd x)) i) kept) (seq 0 n).
Theorem construct_trace_ok rr tr rows nlms : length tr = length rows -> (forall x, In x rows -> length (snd x) = nwords (length rr)) ->
  let kept := kept_rows tr rows in let idx := used_idx kept (length rr) in
  exists d, construct_trace rr tr rows nlms = Some d /\ td_nlms d = nlms /\ td_tri d = map fst kept /\ td_rri d = map (fun i => nth i rr dtag) idx /\
    Forall2 (fun x v => length v = nwords (length idx) /\ forall q, bit v q = match nth_error idx q with Some i => bit (snd (snd x)) i | None => false end) kept (td_rba d).
Proof.
  intros HL HW kept idx. unfold construct_trace. fold (kept_rows tr rows). fold kept. set (rba := map (fun x => snd (snd x)) kept).
  assert (Hw : forall w, In w rba -> length w = nwords (length rr)).
  { intros w Hw. unfold rba in Hw. apply in_map_iff in Hw as (x & <- & Hx). apply filter_In in Hx as [Hx _]. apply HW. destruct x as [t x]. apply in_combine_r in Hx. exact Hx. }
  destruct (or_all_ok rba (repeat 0%N (nwords (length rr)))) as (reds & -> & Lr & Vr); [intros w H; rewrite repeat_length; auto|]. rewrite repeat_length in Lr.
  assert (Eb : forall i, bit reds i = existsb (fun x => bit (snd (snd x)) i) kept).
  { intros i. apply eq_iff_eq_true. rewrite Vr, bit_repeat, existsb_exists. split; [intros [K|(w & Hw1 & Hw2)]; [discriminate|]|intros (x & Hx & Hb); right].
    - unfold rba in Hw1. apply in_map_iff in Hw1 as (x & <- & Hx). eauto.
    - exists (snd (snd x)). split; [unfold rba; apply (in_map (fun x => snd (snd x))); exact Hx|exact Hb]. }
  assert (Hi : forall j, (j < 0 + length rr)%nat -> (j / 32 < length reds)%nat) by (intros j Hj; rewrite Lr; apply nwords_lt; lia).
  rewrite (kept_red_ok reds rr 0 Hi). assert (Ei : filter (bit reds) (seq 0 (length rr)) = idx) by (apply filter_ext; exact Eb). rewrite Ei. rewrite map_length.
  destruct (omap_ok (fun w => squeeze reds w (length rr) 0 0 (repeat 0%N (nwords (length idx)))) (fun w v => length v = nwords (length idx) /\ forall q, bit v q = match nth_error idx q with Some i => bit w i | None => false end) rba) as (nrba & -> & F).
  - intros w Hin. destruct (squeeze_ok reds w (length rr) 0 0 (repeat 0%N (nwords (length idx)))) as (a & Ea & La & _ & Wa).
    + intros j Hj. split; [apply Hi; exact Hj|]. rewrite (Hw w Hin). apply nwords_lt. lia.
    + intros j Hj. rewrite Ei in Hj. rewrite repeat_length. apply nwords_lt. lia.
    + intros j _. apply bit_repeat.
    + exists a. split; [exact Ea|]. rewrite repeat_length in La. split; [exact La|]. intros q. rewrite Ei in Wa. apply Wa.
  - eexists. split; [reflexivity|]. cbn [td_nlms td_tri td_rri td_rba]. split; [reflexivity|]. split; [reflexivity|]. split; [apply map_ext; intros j; rewrite Nat.sub_0_r; reflexivity|].
    unfold rba in F. apply F2_map_l in F. exact F.
Qed.

(** * Rows with tags *)
Definition rfmap {A B} (h : A -> B) (x : res A) : res B := let! a := x in Ok (h a).
Lemma rmap_rfmap {A B C} (f : A -> res B) (g : A -> res C) (h : B -> C) l : (forall a, rfmap h (f a) = g a) -> rfmap (map h) (rmap f l) = rmap g l.
Proof.
  intros H. induction l as [|a l IH]; [reflexivity|]. cbn [rmap]. rewrite <- H, <- IH. destruct (f a); try reflexivity. cbn [rfmap rbind]. destruct (rmap f l); reflexivity.
Qed.
Definition good_tag (els : list elt) (x : (nat * mono) * list (Z * mono)) : Prop :=
  tag_row els (fst x) = Ok (snd x) /\ exists g m, nth_error els (fst (fst x)) = Some g /\ snd (fst x) = mquo m (e_lm g).
Lemma tagged_row els m i : rfmap snd (tagged_at els m i) = row_at els m i.
Proof.
  unfold rfmap, tagged_at, tag_at, row_at, tag_row. destruct (nth_error els i) as [g|] eqn:E; [|reflexivity]. cbn [of_opt rbind fst snd]. rewrite E. cbn [of_opt rbind]. destruct (mul_row _ _); reflexivity.
Qed.
Lemma tagged_good els m i x : tagged_at els m i = Ok x -> good_tag els x.
Proof.
  unfold tagged_at, tag_at. destruct (nth_error els i) as [g|] eqn:E; [|discriminate]. cbn [of_opt rbind]. destruct (tag_row els (i, mquo m (e_lm g))) as [r| | |] eqn:Er; try discriminate. cbn [rbind]. intros H. injection H as <-. split; [exact Er|]. exists g, m. auto.
Qed.
Lemma rmap_all {A B} (f : A -> res B) (P : B -> Prop) l l' : (forall a b, f a = Ok b -> P b) -> rmap f l = Ok l' -> forall b, In b l' -> P b.
Proof. intros H E b Hb. apply rmap_F2 in E. destruct (F2_in_r _ _ _ _ E Hb) as (a & _ & Ha). eapply H; exact Ha. Qed.
Lemma run_tags_snd els run : rfmap (map snd) (run_tags els run) = run_rows els run.
Proof. apply rmap_rfmap. intros i. apply tagged_row. Qed.
Definition forget3 (a : list mono * list mono * list ((nat * mono) * list (Z * mono))) : list mono * list mono * list (list (Z * mono)) := (fst a, map snd (snd a)).
Lemma symb_t_snd els lmps skip oes : forall fuel i sht leads rr, rfmap forget3 (symb_t fuel els lmps skip oes i sht leads rr) = symb fuel els lmps skip oes i sht leads (map snd rr).
Proof.
  induction fuel as [|fuel IH]; intros i sht leads rr; cbn [symb_t symb]; destruct (nth_error sht i) as [m|]; try reflexivity. destruct (_ && _); [apply IH|]. destruct (find_red els lmps m) as [[g|]| | |]; try reflexivity; cbn [rbind]; [|apply IH].
  rewrite <- tagged_row. destruct (tagged_at els m g) as [x| | |]; try reflexivity. cbn [rfmap rbind]. rewrite IH, map_app. reflexivity.
Qed.
Lemma symb_t_good els lmps skip oes : forall fuel i sht leads rr sht' leads' rr', symb_t fuel els lmps skip oes i sht leads rr = Ok (sht', leads', rr') ->
  (forall x, In x rr -> good_tag els x) -> forall x, In x rr' -> good_tag els x.
Proof.
  induction fuel as [|fuel IH]; intros i sht leads rr sht' leads' rr' H HG; cbn [symb_t] in H; (destruct (nth_error sht i) as [m|]; [|injection H as _ _ <-; exact HG]); [discriminate|].
  destruct (_ && _); [eapply IH; eassumption|]. destruct (find_red els lmps m) as [[g|]| | |]; try discriminate; cbn [rbind] in H; [|eapply IH; eassumption]. destruct (tagged_at els m g) as [y| | |] eqn:Ey; try discriminate. cbn [rbind] in H.
  eapply IH; [exact H|]. intros x Hx. apply in_app_or in Hx as [Hx|[<-|[]]]; [auto|]. eapply tagged_good; exact Ey.
Qed.
Definition forgetm (a : list spair * (list mono * list mono) * (list ((nat * mono) * list (Z * mono)) * list ((nat * mono) * list (Z * mono)))) : list spair * (list mono * list mono) * (list (list (Z * mono)) * list (list (Z * mono))) :=
  (fst a, (map snd (fst (snd a)), map snd (snd (snd a)))).
Lemma hds_snd {A B} (rows : list (list (A * B))) : rfmap (map snd) (rmap (fun l => of_opt (hd_error l)) rows) = rmap (fun l => of_opt (hd_error l)) (map (map snd) rows).
Proof.
  induction rows as [|l rows IH]; [reflexivity|]. cbn [rmap map]. rewrite <- IH. destruct l as [|x l]; [reflexivity|]. cbn [hd_error map of_opt rbind]. destruct (rmap _ rows); reflexivity.
Qed.
Lemma round_matrix_t_snd c fuel r b ps : rfmap forgetm (round_matrix_t c fuel r b ps) = round_matrix c fuel r b ps.
Proof.
  unfold round_matrix_t, round_matrix. set (rs := runs _). rewrite <- (rmap_rfmap (run_tags (b_el b)) (run_rows (b_el b)) (map snd) rs (run_tags_snd _)).
  destruct (rmap (run_tags (b_el b)) rs) as [rows| | |]; try reflexivity. cbn [rfmap rbind]. rewrite <- hds_snd. destruct (rmap (fun l => of_opt (hd_error l)) rows) as [rr0| | |]; try reflexivity. cbn [rfmap rbind].
  rewrite concat_map. rewrite <- symb_t_snd. destruct (symb_t _ _ _ _ _ _ _ _ rr0) as [[[sht' leads] rr]| | |]; try reflexivity. unfold rfmap, forget3, forgetm. cbn [rbind fst snd].
  assert (E : map snd (concat (map (@tl _) rows)) = concat (map (@tl _) (map (map snd) rows))); [|rewrite E; reflexivity]. rewrite concat_map, !map_map. f_equal. apply map_ext. intros l. destruct l; reflexivity.
Qed.
Lemma round_matrix_t_good c fuel r b ps rest cols rr tr : round_matrix_t c fuel r b ps = Ok (rest, cols, (rr, tr)) -> forall x, In x (rr ++ tr) -> good_tag (b_el b) x.
Proof.
  unfold round_matrix_t. set (rs := runs _). destruct (rmap (run_tags (b_el b)) rs) as [rows| | |] eqn:E1; try discriminate. cbn [rbind]. destruct (rmap (fun l => of_opt (hd_error l)) rows) as [rr0| | |] eqn:E2; try discriminate. cbn [rbind].
  destruct (symb_t _ _ _ _ _ _ _ _ rr0) as [[[sht' leads] rr1]| | |] eqn:E3; try discriminate. cbn [rbind]. intros H. injection H as <- <- <- <-.
  assert (G : forall l x, In l rows -> In x l -> good_tag (b_el b) x).
  { intros l x Hl Hx. revert x Hx. revert l Hl. apply (rmap_all _ (fun l => forall x, In x l -> good_tag (b_el b) x) _ _) with (2 := E1). intros a l El x Hx. unfold run_tags in El. revert x Hx. eapply rmap_all; [|exact El]. intros i x Hx. eapply tagged_good; exact Hx. }
  intros x Hx. apply in_app_or in Hx as [Hx|Hx].
  - eapply symb_t_good; [exact E3| |exact Hx]. intros y Hy. apply rmap_F2 in E2. destruct (F2_in_r _ _ _ _ E2 Hy) as (l & Hl & El). destruct l as [|z l]; [discriminate|]. injection El as ->. apply (G (y :: l)); [exact Hl|left; reflexivity].
  - apply in_concat in Hx as (l & Hl & Hx). apply in_map_iff in Hl as (l' & <- & Hl'). apply (G l'); [exact Hl'|]. destruct l'; [destruct Hx|right; exact Hx].
Qed.
Lemma insert_map {A B} (f : A -> B) (le : B -> B -> bool) x l : map f (insert_by (fun a b => le (f a) (f b)) x l) = insert_by le (f x) (map f l).
Proof. induction l as [|y l IH]; [reflexivity|]. cbn [insert_by map]. destruct (le (f x) (f y)); [reflexivity|]. cbn [map]. rewrite IH. reflexivity. Qed.
Lemma sort_map {A B} (f : A -> B) (le : B -> B -> bool) l : map f (sort_by (fun a b => le (f a) (f b)) l) = sort_by le (map f l).
Proof. unfold sort_by. induction l as [|y l IH]; [reflexivity|]. cbn [fold_right map]. rewrite insert_map, IH. reflexivity. Qed.
Lemma rows_dec_t_snd l : map snd (rows_dec_t l) = rows_dec (map snd l).
Proof. apply (sort_map snd (fun a b => (hcol a <=? hcol b)%nat)). Qed.

(** * One matrix *)
Record mat_hyp (o : ordering) (els : list elt) (sht leads : list mono) (rr tr : list (list (Z * mono))) : Prop := {
  mh_nd : NoDup sht;
  mh_len : forall m, In m sht -> length m = o_nv o;
  mh_lnd : NoDup leads;
  mh_sub : forall m, In m leads -> In m sht;
  mh_perm : Permutation (map lmono rr) leads;
  mh_rr : forall r, In r rr -> mrow (o_nv o) els r /\ forall t, In t r -> In (snd t) sht;
  mh_tr : forall r, In r tr -> mrow (o_nv o) els r /\ (forall t, In t r -> In (snd t) sht) /\ In (lmono r) leads }.
Definition hcm_of (o : ordering) (sht leads : list mono) : list mono := fst (columns o sht leads) ++ snd (columns o sht leads).

Section Ech.
Variables (c : config) (els : list elt) (sht leads : list mono) (rr tr : list (list (Z * mono))).
Hypothesis CK : cfg_ok c.
Let o := c_o c.
Let nv := o_nv o.
Let lt := o_lt o.
Let p := c_p c.
Let k := c_k c.
Hypothesis HE : els_ok nv lt p els.
Hypothesis MH : mat_hyp o els sht leads rr tr.
Let L := fst (columns o sht leads).
Let hcm := hcm_of o sht leads.
Hypothesis HF : cols_fit k p (length hcm) = true.
Variable r : nat.
Let sched := c_sched c r (length hcm) (length tr).
Let pv := nth_error (rows_dec (map (to_row hcm) rr)).
Let rows0 := map (to_row hcm) tr.

Lemma ech_len : length rr = length L.
Proof.
  destruct MH as [M1 M2 M3 M4 M5 M6 M7]. pose proof (heads_seq o p sht leads els rr HE M1 M3 M4 M5 M6) as H. apply (f_equal (@length _)) in H. rewrite map_length, seq_length in H. unfold rows_dec in H. rewrite (Permutation_length (sort_perm _ _)), map_length in H. exact H.
Qed.
Lemma ech : exists s l news, sys_run_t k p (length L) (length hcm) sched (init_t (length rr) pv rows0) = Some s /\
  sys_run k p (length L) (length hcm) sched (init_shared pv rows0) = Some (forget s) /\ tinv p (length L) (length rr) pv rows0 s /\ length (ts_rows s) = length tr /\
  forallb (fun x => finished (fst x)) (ts_rows s) = true /\
  interreduce k p (length L) (length hcm) (length hcm - length L) (drop_old (length L) (ts_pivs s)) = Some l /\ echelon k p (length L) (length hcm) pv rows0 sched = Some l /\
  length l = length (filter (fun x => is_piv (fst x)) (ts_rows s)) /\ (forall q, In q l -> span p (kset pv rows0 (ts_rows s)) (rv q)) /\
  rmap (of_row hcm) (rev l) = Ok news /\ new_rows o p sht leads rr tr news /\ length news = length l /\ ForallOrdPairs (fun f g => lt (lmono g) (lmono f)) news /\
  (forall f g, In f news -> In g news -> f <> g -> forall t, In t f -> snd t <> lmono g).
Proof.
  destruct MH as [M1 M2 M3 M4 M5 M6 M7] eqn:EM. clear EM. pose proof (cols_fit_ok _ _ _ HF) as HC.
  pose proof (mat_ok o p (ck_o c CK) sht leads els rr tr HE M1 M2 M3 M4 M5 M6 M7) as HM.
  assert (HL : (length L <= length rr)%nat) by (rewrite ech_len; lia).
  assert (Hld : forall q, In q rows0 -> exists h x q', q = (h, x) :: q' /\ (h < length L)%nat /\ 0 < x < p).
  { intros q Hq. apply in_map_iff in Hq as (f & <- & Hf). destruct (M7 f Hf) as (A & B & D). destruct (row_pivot o p (ck_o c CK) sht leads els HE M1 M2 M4 f A B D) as (_ & _ & _ & q' & Eq & _). exists (pos (lmono f) hcm), 1, q'. split; [exact Eq|]. split; [apply (col_left o sht leads M4); exact D|]. pose proof (cfg_p c CK). unfold p. lia. }
  assert (HR : kroom k p (S (length hcm))) by (apply columns_room; exact HC). pose proof (class_kern _ _ (ck_k c CK)) as HK.
  assert (HS : forall t, (t < length rows0)%nat -> ((length hcm + 2) * (length hcm + 3) <= count_occ Nat.eq_dec sched t)%nat) by (intros t Ht; unfold rows0 in Ht; rewrite map_length in Ht; apply (ck_sched c CK); exact Ht).
  destruct (traced_run k p (length L) (length hcm) (length rr) pv rows0 (ck_p c CK) HK HR HM HL Hld sched) as (s & E1 & E2 & T & LS).
  pose proof (C20_terminates k p (length L) (length hcm) pv rows0 sched (forget s) (ck_p c CK) (ck_k c CK) HC HM E2 HS) as FN.
  assert (FN' : forallb (fun x => finished (fst x)) (ts_rows s) = true) by (cbn [forget sh_rows] in FN; rewrite forallb_forall in *; intros x Hx; apply FN; apply in_map; exact Hx).
  destruct (traced_result k p (length L) (length hcm) (length rr) pv rows0 (ck_p c CK) HK HR HM HL Hld sched s E1 FN') as (l & E3 & E4 & E5 & E6).
  destruct (round_rows_ok o p (ck_o c CK) k sht leads els rr tr (ck_p c CK) (ck_k c CK) HE M1 M2 M3 M4 M5 M6 M7 sched) as (l' & news & E7 & E8 & E9).
  { intros t Ht. apply HS. unfold rows0. rewrite map_length. exact Ht. }
  { exact HC. }
  assert (l' = l) by (unfold pv, rows0, L, hcm, hcm_of in E4; congruence). subst l'.
  destruct (round_rows_more o p (ck_o c CK) k sht leads els rr tr (ck_p c CK) (ck_k c CK) HE M1 M2 M3 M4 M5 M6 M7 sched l news E7 HC E8) as (F1 & F2 & F3).
  exists s, l, news. unfold rows0 in LS. rewrite map_length in LS. split; [exact E1|]. split; [exact E2|]. split; [exact T|]. split; [exact LS|]. split; [exact FN'|]. split; [exact E3|]. split; [exact E4|]. split; [exact E5|]. split; [exact E6|]. split; [exact E8|]. split; [exact E9|]. split; [exact F1|]. split; [exact F2|exact F3].
Qed.
End Ech.

(** what is known about the recorded data of a round *)
Record round_td (o : ordering) (k : kern) (p : Z) (els : list elt) (d : tdata) (news : list (list (Z * mono))) (rr tr : list (list (Z * mono))) : Prop := {
  rt_rr : rmap (tag_row els) (td_rri d) = Ok rr;
  rt_tr : rmap (tag_row els) (td_tri d) = Ok tr;
  rt_tag : forall t, In t (td_rri d ++ td_tri d) -> (fst t < length els)%nat /\ length (snd t) = o_nv o;
  rt_nd : NoDup (map lmono rr);
  rt_lead : forall f, In f tr -> In (lmono f) (map lmono rr);
  rt_nlms : td_nlms d = map lmono news;
  rt_len : length tr = length news;
  rt_mpoly : forall f, In f news -> mpoly (o_nv o) (o_lt o) p f;
  rt_span : forall f, In f news -> lspan (o_nv o) p (pfs (rr ++ tr)) (cf f);
  rt_mon : forall f t, In f news -> In t f -> ~ In (snd t) (map lmono rr);
  rt_red : forall f g, In f news -> In g news -> f <> g -> forall t, In t f -> snd t <> lmono g;
  rt_dec : ForallOrdPairs (fun f g => o_lt o (lmono g) (lmono f)) news;
  rt_fit : cols_fit k p (length (sht_rows [] (rr ++ tr))) = true }.

Lemma combine_map_l {A B C} (f : A -> C) (l : list A) (l' : list B) : combine (map f l) l' = map (fun x => (f (fst x), snd x)) (combine l l').
Proof. revert l'. induction l as [|a l IH]; intros [|b l']; cbn; try reflexivity. f_equal. apply IH. Qed.
Lemma filter_map {A B} (f : A -> B) (h : B -> bool) l : filter h (map f l) = map f (filter (fun a => h (f a)) l).
Proof. induction l as [|a l IH]; [reflexivity|]. cbn. destruct (h (f a)); cbn; rewrite IH; reflexivity. Qed.
Lemma combine_nth_error {A B} (l : list A) (l' : list B) i a b : nth_error l i = Some a -> nth_error l' i = Some b -> nth_error (combine l l') i = Some (a, b).
Proof. revert l' i. induction l as [|x l IH]; intros [|y l'] [|i] H1 H2; cbn in *; try discriminate; [congruence|auto]. Qed.
Lemma combine_nth_inv {A B} (l : list A) (l' : list B) i x : nth_error (combine l l') i = Some x -> nth_error l i = Some (fst x) /\ nth_error l' i = Some (snd x).
Proof. revert l' i. induction l as [|a l IH]; intros [|b l'] [|i] H; cbn in *; try discriminate; [injection H as <-; auto|apply IH; exact H]. Qed.
Lemma cols_fit_mono k p n m : (n <= m)%nat -> cols_fit k p m = true -> cols_fit k p n = true.
Proof. intros H. unfold cols_fit. destruct k; auto; rewrite !Z.leb_le; nia. Qed.
Lemma rmap_map {A B C} (f : B -> res C) (g : A -> B) (h : A -> C) l : (forall a, In a l -> f (g a) = Ok (h a)) -> rmap f (map g l) = Ok (map h l).
Proof. induction l as [|a l IH]; intros H; [reflexivity|]. cbn [map rmap]. rewrite H by (left; reflexivity). rewrite IH by (intros x Hx; apply H; right; exact Hx). reflexivity. Qed.
Lemma filter_len_combine {A B} (h : B -> bool) (l : list A) (l' : list B) : length l = length l' -> length (filter (fun x => h (snd x)) (combine l l')) = length (filter h l').
Proof. revert l'. induction l as [|a l IH]; intros [|b l'] H; cbn in *; try discriminate; [reflexivity|]. destruct (h b); cbn; rewrite IH by lia; reflexivity. Qed.

Lemma map2_len f : forall a b, length (map2 f a b) = Nat.min (length a) (length b).
Proof. induction a as [|x a IH]; intros [|y b]; cbn; auto. Qed.
Lemma good_tag_len nv lt p els x : mono_order nv lt -> els_ok nv lt p els -> good_tag els x -> mrow nv els (snd x) -> (fst (fst x) < length els)%nat /\ length (snd (fst x)) = nv.
Proof.
  intros MO HE (E & g & m & Eg & Em) Hr. split; [apply nth_error_Some; congruence|]. pose proof (mrow_mpoly nv lt p MO els _ HE Hr) as Mr. unfold tag_row in E. rewrite Eg in E. cbn [of_opt rbind] in E. unfold mul_row in E. unfold when in E. destruct (forallb _ _); [|discriminate]. cbn [rbind] in E. injection E as E.
  pose proof (HE g (nth_error_In _ _ Eg)) as Mg. destruct (mpoly_lm _ _ _ _ Mg) as [_ Lg]. destruct (mpoly_lm _ _ _ _ Mr) as [_ Lr]. fold (mulp (snd (fst x)) (e_pol g)) in E. rewrite <- E, lmono_mulp in Lr by (apply Mg). fold (e_lm g) in Lr, Lg.
  rewrite Em in *. unfold mmul, mquo in *. rewrite !map2_len in Lr. rewrite map2_len. lia.
Qed.

(** * Learning *)
Section Learn.
Variables (c : config) (els : list elt) (sht leads : list mono) (rrT trT : list ((nat * mono) * list (Z * mono))).
Hypothesis CK : cfg_ok c.
Let o := c_o c.
Let nv := o_nv o.
Let lt := o_lt o.
Let p := c_p c.
Let k := c_k c.
Let MO : mono_order nv lt := o_lt_order o.
Hypothesis HE : els_ok nv lt p els.
Let rr := map snd rrT.
Let tr := map snd trT.
Hypothesis MH : mat_hyp o els sht leads rr tr.
Hypothesis HT : forall x, In x (rrT ++ trT) -> good_tag els x.
Let L := fst (columns o sht leads).
Let hcm := hcm_of o sht leads.
Variable r : nat.

Definition rsort : list ((nat * mono) * list (Z * mono)) := sort_by (fun a b => (hcol (to_row hcm (snd a)) <=? hcol (to_row hcm (snd b)))%nat) rrT.
Lemma rsort_rows : rows_dec_t (map (fun x => (fst x, to_row hcm (snd x))) rrT) = map (fun x => (fst x, to_row hcm (snd x))) rsort.
Proof. unfold rows_dec_t, rsort. rewrite <- (sort_map (fun x : (nat * mono) * list (Z * mono) => (fst x, to_row hcm (snd x))) (fun a b => (hcol (snd a) <=? hcol (snd b))%nat)). reflexivity. Qed.
Lemma rsort_snd : rows_dec (map (to_row hcm) rr) = map (fun x => to_row hcm (snd x)) rsort.
Proof. unfold rsort, rows_dec, rr. rewrite map_map. rewrite <- (sort_map (fun x : (nat * mono) * list (Z * mono) => to_row hcm (snd x)) (fun a b => (hcol a <=? hcol b)%nat)). reflexivity. Qed.
Lemma rsort_in x : In x rsort <-> In x rrT.
Proof. split; apply Permutation_in; [|symmetry]; apply sort_perm. Qed.
Lemma rsort_len : length rsort = length L.
Proof. transitivity (length rr); [unfold rr, rsort; rewrite map_length; apply Permutation_length, sort_perm|apply (ech_len c els sht leads rr tr HE MH)]. Qed.
Definition dtr : (nat * mono) * list (Z * mono) := (dtag, []).
Lemma rsort_pos i : (i < length L)%nat -> pos (lmono (snd (nth i rsort dtr))) hcm = i /\ In (nth i rsort dtr) rrT.
Proof.
  intros Hi. assert (Hin : In (nth i rsort dtr) rrT) by (apply rsort_in, nth_In; rewrite rsort_len; exact Hi). split; [|exact Hin]. pose proof MH as [M1 M2 M3 M4 M5 M6 M7].
  pose proof (heads_seq o p sht leads els rr HE M1 M3 M4 M5 M6) as H. fold (hcm_of o sht leads) in H. fold hcm L in H. rewrite rsort_snd, map_map in H.
  assert (K : nth i (map (fun x => hcol (to_row hcm (snd x))) rsort) (hcol (to_row hcm (snd dtr))) = i) by (rewrite H, (nth_indep _ _ O) by (rewrite seq_length; exact Hi); rewrite seq_nth by exact Hi; reflexivity).
  rewrite (map_nth (fun x => hcol (to_row hcm (snd x)))) in K. rewrite (row_head o p sht leads els HE) in K; [exact K|]. apply M6. unfold rr. apply in_map. exact Hin.
Qed.

Theorem learn_rows_ok : cols_fit k p (length hcm) = true ->
  exists news ds, learn_rows c r (columns o sht leads) rrT trT = Ok (news, ds) /\ round_rows c r (columns o sht leads) rr tr = Ok news /\ new_rows o p sht leads rr tr news /\
  (news = [] /\ ds = [] \/ exists d rr' tr', ds = [d] /\ round_td o k p els d news rr' tr').
Proof.
  intros HF. pose proof MH as [M1 M2 M3 M4 M5 M6 M7]. destruct (ech c els sht leads rr tr CK HE MH HF r) as (s & l & news & E1 & E2 & T & LS & FN & E3 & E4 & E5 & E6 & E7 & E8 & E9 & E10 & E11).
  fold o p k in E1, E2, T, E3, E4, E6, E7, E8, E10. fold L in E1, E2, T, E3, E4. fold hcm in E1, E2, T, E3, E4, E6, E7. exists news.
  assert (ER : round_rows c r (columns o sht leads) rr tr = Ok news).
  { unfold round_rows. fold (hcm_of o sht leads). fold hcm o p k L. rewrite HF. cbn [when rbind]. rewrite E4. cbn [of_opt rbind]. exact E7. }
  assert (EL : forall X, (if existsb (fun x => is_piv (fst x)) (ts_rows s) then let! d := of_opt (construct_trace (map fst rsort) (map fst trT) (ts_rows s) (map lmono news)) in Ok (news, [d]) else Ok (news, [])) = X -> learn_rows c r (columns o sht leads) rrT trT = X).
  { intros X <-. unfold learn_rows. fold (hcm_of o sht leads). fold hcm o p k L. rewrite HF. cbn [when rbind]. rewrite rsort_rows, !map_map. cbn [fst snd]. rewrite rsort_snd in E1. unfold rr, tr in E1. rewrite !map_map, !map_length in E1. rewrite E1. cbn [of_opt rbind]. rewrite FN, E3. cbn [of_opt rbind]. rewrite E7. reflexivity. }
  destruct (existsb (fun x => is_piv (fst x)) (ts_rows s)) eqn:EP.
  2:{ exists []. split; [apply EL; reflexivity|]. split; [exact ER|]. split; [exact E8|]. left. split; [|reflexivity]. destruct news as [|f news]; [reflexivity|]. exfalso. cbn [length] in E9. rewrite E5 in E9.
      destruct (filter (fun x => is_piv (fst x)) (ts_rows s)) as [|y ys] eqn:Ef; [discriminate|]. assert (Hy : In y (filter (fun x => is_piv (fst x)) (ts_rows s))) by (rewrite Ef; left; reflexivity). apply filter_In in Hy as [H1 H2]. assert (K : existsb (fun x => is_piv (fst x)) (ts_rows s) = true) by (apply existsb_exists; eauto). congruence. }
  assert (LT : length (map fst trT) = length (ts_rows s)) by (rewrite map_length, LS; unfold tr; rewrite map_length; reflexivity).
  assert (LW : forall x, In x (ts_rows s) -> length (snd x) = nwords (length (map fst rsort))).
  { intros [rs w] Hx. apply In_nth_error in Hx as (t & Ht). destruct (ti_row _ _ _ _ _ _ T t rs w Ht) as (Lw & _). cbn [snd]. rewrite Lw, map_length, rsort_len. f_equal. apply (ech_len c els sht leads rr tr HE MH). }
  destruct (construct_trace_ok (map fst rsort) (map fst trT) (ts_rows s) (map lmono news) LT LW) as (d & Ed & D1 & D2 & D3 & D4). rewrite map_length in D3, D4.
  exists [d]. split; [apply EL; rewrite Ed; reflexivity|]. split; [exact ER|]. split; [exact E8|]. right. exists d.
  set (kept := kept_rows (map fst trT) (ts_rows s)) in *. set (idx := used_idx kept (length rsort)) in *.
  set (kept' := filter (fun x => is_piv (fst (snd x))) (combine trT (ts_rows s))).
  assert (EK : kept = map (fun x => (fst (fst x), snd x)) kept').
  { unfold kept, kept_rows, kept'. rewrite combine_map_l, filter_map. reflexivity. }
  exists (map (fun i => snd (nth i rsort dtr)) idx), (map (fun x => snd (fst x)) kept'). split; [reflexivity|].
  assert (Hidx : forall i, In i idx -> (i < length L)%nat) by (intros i Hi; apply filter_In in Hi as [Hi _]; apply in_seq in Hi; rewrite rsort_len in Hi; lia).
  assert (Ntag : forall i, nth i (map fst rsort) dtag = fst (nth i rsort dtr)) by (intros i; apply (map_nth fst rsort dtr)).
  assert (Krow : forall x, In x kept' -> exists t cc w, nth_error trT t = Some (fst x) /\ nth_error (ts_rows s) t = Some (DonePiv cc, w) /\ snd x = (DonePiv cc, w)).
  { intros x Hx. apply filter_In in Hx as [Hx Hp0]. apply In_nth_error in Hx as (t & Ht). apply combine_nth_inv in Ht as [H1 H2]. destruct (snd x) as [rs w] eqn:Ex. cbn [fst] in Hp0. destruct rs; try discriminate. exists t, c0, w. auto. }
  assert (KrowI : forall t x cc w, nth_error trT t = Some x -> nth_error (ts_rows s) t = Some (DonePiv cc, w) -> In (x, (DonePiv cc, w)) kept').
  { intros t x cc w H1 H2. apply filter_In. split; [|reflexivity]. eapply nth_error_In. apply combine_nth_error; eassumption. }
  assert (Kidx : forall t cc w i, nth_error (ts_rows s) t = Some (DonePiv cc, w) -> bit w i = true -> (i < length L)%nat -> In i idx).
  { intros t cc w i H1 H2 H3. apply filter_In. split; [apply in_seq; rewrite rsort_len; lia|]. apply existsb_exists. assert (Ht : (t < length trT)%nat). { rewrite map_length in LT. rewrite LT. apply nth_error_Some. congruence. }
    destruct (nth_error trT t) as [x|] eqn:Ex; [|apply nth_error_None in Ex; lia]. exists (fst x, (DonePiv cc, w)). split; [|exact H2]. rewrite EK. apply in_map_iff. exists (x, (DonePiv cc, w)). split; [reflexivity|]. eapply KrowI; eassumption. }
  assert (InTr : forall x, In x kept' -> In (snd (fst x)) tr) by (intros x Hx; destruct (Krow x Hx) as (t & cc & w & H1 & _); unfold tr; apply in_map; eapply nth_error_In; exact H1).
  assert (InRr : forall i, In i idx -> In (snd (nth i rsort dtr)) rr) by (intros i Hi; unfold rr; apply in_map; apply rsort_pos; auto).
  assert (HN : NoDup hcm) by (apply hcm_nd; assumption).
  assert (Rlead : forall i, In i idx -> In (lmono (snd (nth i rsort dtr))) hcm).
  { intros i Hi. apply hcm_in; [exact M4|]. apply M4. apply (Permutation_in _ M5). apply in_map. apply InRr. exact Hi. }
  constructor.
  - rewrite D3. apply rmap_map. intros i Hi. rewrite Ntag. destruct (rsort_pos i (Hidx i Hi)) as [_ Hin]. apply (HT (nth i rsort dtr)). apply in_or_app. left. exact Hin.
  - rewrite D2, EK, map_map. apply rmap_map. intros x Hx. cbn [fst]. destruct (Krow x Hx) as (t & cc & w & H1 & _). apply (HT (fst x)). apply in_or_app. right. eapply nth_error_In; exact H1.
  - intros t Ht. rewrite D2, D3 in Ht. apply in_app_or in Ht as [Ht|Ht].
    + apply in_map_iff in Ht as (i & <- & Hi). rewrite Ntag. destruct (rsort_pos i (Hidx i Hi)) as [_ Hin]. apply (good_tag_len nv lt p els _ MO HE); [apply HT; apply in_or_app; left; exact Hin|apply M6; apply InRr; exact Hi].
    + rewrite EK, map_map in Ht. apply in_map_iff in Ht as (x & <- & Hx). cbn [fst]. destruct (Krow x Hx) as (t & cc & w & H1 & _). apply (good_tag_len nv lt p els _ MO HE); [apply HT; apply in_or_app; right; eapply nth_error_In; exact H1|]. apply M7. apply InTr. exact Hx.
  - rewrite map_map. apply (NoDup_map_inv (fun m => pos m hcm)). rewrite map_map. rewrite (map_ext_in _ (fun i => i)) by (intros i Hi; apply rsort_pos; auto). rewrite map_id. apply NoDup_filter, seq_NoDup.
  - intros f Hf. apply in_map_iff in Hf as (x & <- & Hx). destruct (Krow x Hx) as (t & cc & w & H1 & H2 & _). destruct (ti_row _ _ _ _ _ _ T t _ w H2) as (_ & r0 & Er0 & (Hb & _)). rewrite nth_error_map in Er0. unfold tr in Er0. rewrite nth_error_map, H1 in Er0. cbn [option_map] in Er0. injection Er0 as <-. unfold hd_bit in Hb.
    destruct (M7 _ (InTr x Hx)) as (A1 & A2 & A3). pose proof (row_head o p sht leads els HE _ A1) as Eh. fold (hcm_of o sht leads) in Eh. fold hcm in Eh. rewrite Eh in Hb. pose proof (col_left o sht leads M4 _ A3) as Hc. fold (hcm_of o sht leads) in Hc. fold hcm L in Hc. set (i := pos (lmono (snd (fst x))) hcm) in *.
    assert (Ii : In i idx) by (eapply Kidx; eassumption). rewrite map_map. apply in_map_iff. exists i. split; [|exact Ii]. apply (pos_inj _ _ hcm); [apply Rlead; exact Ii|apply hcm_in; [exact M4|apply M4; exact A3]|]. apply (rsort_pos i Hc).
  - exact D1.
  - rewrite map_length, E9, E5. unfold kept'. apply (filter_len_combine (fun x => is_piv (fst x))). rewrite map_length in LT. exact LT.
  - apply (nr_mpoly _ _ _ _ _ _ _ E8).
  - intros f Hf. apply rmap_F2 in E7. destruct (F2_in_r _ _ _ _ E7 Hf) as (q & Hq & Eq). apply in_rev in Hq. pose proof (E6 q Hq) as SP.
    assert (Fq : forall m, phi hcm (rv q) m = cf f m).
    { intros m. apply (phi_of_row o hcm HN). clear - Eq. revert f Eq. unfold of_row. induction q as [|t q IH]; intros f Eq; cbn [rmap] in Eq; [injection Eq as <-; constructor|]. destruct (nth_error hcm (fst t)) as [m|] eqn:Em; [|discriminate]. cbn [of_opt rbind] in Eq. destruct (rmap _ q) as [f'| | |] eqn:E'; try discriminate. cbn [rbind] in Eq. injection Eq as <-. constructor; [cbn; auto|apply IH; reflexivity]. }
    eapply lspan_ext; [eapply (phi_span o p hcm); [|exact SP]|intros m _; symmetry; apply Fq].
    intros u (t & cc & w & r0 & H1 & H2 & H3). rewrite nth_error_map in H2. destruct (nth_error tr t) as [f0|] eqn:Ef0; [|discriminate]. cbn [option_map] in H2. injection H2 as <-. unfold tr in Ef0. rewrite nth_error_map in Ef0. destruct (nth_error trT t) as [x0|] eqn:Ex0; [|discriminate]. cbn [option_map] in Ef0. injection Ef0 as <-.
    destruct H3 as [->|(j & rj & Hb & Hj & ->)].
    + eapply lspan_ext; [apply ls_in; exists (snd x0); split; [|reflexivity]|intros m _; apply (phi_to_row o hcm HN)].
      * apply in_or_app. right. apply in_map_iff. exists (x0, (DonePiv cc, w)). split; [reflexivity|]. eapply KrowI; eassumption.
      * intros t0 Ht0. apply hcm_in; [exact M4|]. apply (M7 (snd x0)); [unfold tr; apply in_map; eapply nth_error_In; exact Ex0|exact Ht0].
    + assert (Lj : (j < length L)%nat). { rewrite <- rsort_len. rewrite rsort_snd in Hj. rewrite <- (map_length (fun x => to_row hcm (snd x)) rsort). apply nth_error_Some. congruence. }
      assert (Ij : In j idx) by (eapply Kidx; eassumption). rewrite rsort_snd, nth_error_map in Hj. rewrite (nth_error_nth' rsort dtr) in Hj by (rewrite rsort_len; exact Lj). cbn [option_map] in Hj. injection Hj as <-.
      eapply lspan_ext; [apply ls_in; exists (snd (nth j rsort dtr)); split; [|reflexivity]|intros m _; apply (phi_to_row o hcm HN)].
      * apply in_or_app. left. apply in_map_iff. exists j. auto.
      * intros t0 Ht0. apply hcm_in; [exact M4|]. apply (M6 (snd (nth j rsort dtr))); [apply InRr; exact Ij|exact Ht0].
  - intros f t Hf Ht K. apply (proj2 (nr_mon _ _ _ _ _ _ _ E8 f t Hf Ht)). apply (Permutation_in _ M5). apply in_map_iff in K as (g & Eg & Hg). rewrite <- Eg. apply in_map. apply in_map_iff in Hg as (i & <- & Hi). apply InRr. exact Hi.
  - exact E11.
  - exact E10.
  - eapply cols_fit_mono; [|exact HF]. apply NoDup_incl_length; [apply sht_rows_nd; constructor|]. intros m Hm. apply sht_rows_in in Hm as [[]|(f & t & Hf & Ht & <-)]. apply hcm_in; [exact M4|]. apply in_app_or in Hf as [Hf|Hf].
    + apply in_map_iff in Hf as (i & <- & Hi). apply (M6 _ (InRr i Hi)). exact Ht.
    + apply in_map_iff in Hf as (x & <- & Hx). apply (M7 _ (InTr x Hx)). exact Ht.
Qed.
Lemma learn_rows_ne news ds : cols_fit k p (length hcm) = true -> learn_rows c r (columns o sht leads) rrT trT = Ok (news, ds) -> ds <> [] -> news <> [].
Proof.
  intros HF. pose proof MH as [M1 M2 M3 M4 M5 M6 M7]. destruct (ech c els sht leads rr tr CK HE MH HF r) as (s & l & news' & E1 & E2 & T & LS & FN & E3 & E4 & E5 & E6 & E7 & E8 & E9 & E10 & E11).
  fold o p k in E1, E2, T, E3, E4, E6, E7, E8, E10. fold L in E1, E2, T, E3, E4. fold hcm in E1, E2, T, E3, E4, E6, E7.
  unfold learn_rows. fold (hcm_of o sht leads). fold hcm o p k L. rewrite HF. cbn [when rbind]. rewrite rsort_rows, !map_map. cbn [fst snd]. rewrite rsort_snd in E1. unfold rr, tr in E1. rewrite !map_map, !map_length in E1. rewrite E1. cbn [of_opt rbind]. rewrite FN, E3. cbn [of_opt rbind]. rewrite E7. cbn [rbind].
  destruct (existsb (fun x => is_piv (fst x)) (ts_rows s)) eqn:EP; [|intros [= <- <-] K; congruence].
  destruct (construct_trace _ _ _ _) as [d|]; cbn [of_opt rbind]; [|discriminate]. intros [= <- _] _ ->. rewrite E5 in E9. apply existsb_exists in EP as (x & Hx & Hp0).
  assert (Hin : In x (filter (fun x => is_piv (fst x)) (ts_rows s))) by (apply filter_In; auto). destruct (filter (fun x => is_piv (fst x)) (ts_rows s)); [destruct Hin|discriminate].
Qed.
End Learn.
