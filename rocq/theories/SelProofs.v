(** Pair selection and the rows of the matrix. *)
From Coq Require Import ZArith NArith Arith List Bool Lia Permutation Sorted.
From Verif Require Import LinSpec MonoSpec MonoModel MonoSpecProofs MonoCmpProofs GbSpec GbProofs LaModel F4Model UpdProofs F4Rows SymbProofs.
Import ListNotations.
Open Scope Z_scope.

Lemma mcmp_spec o a b : o_ok o -> length a = o_nv o -> length b = o_nv o -> cmp_spec (o_lt o) a b (mcmp o a b).
Proof. intros Ho Ha Hb. unfold mcmp. destruct (monomial_cmp_ev_ok o a b Ho Ha Hb) as (c & -> & H). exact H. Qed.
Lemma mcmp_antisym o a b : o_ok o -> length a = o_nv o -> length b = o_nv o -> mcmp o a b <= 0 -> mcmp o b a <= 0 -> a = b.
Proof.
  intros Ho Ha Hb H1 H2. destruct (mcmp_spec o a b Ho Ha Hb) as (A1 & A2 & A3). destruct (mcmp_spec o b a Ho Hb Ha) as (B1 & B2 & B3). pose proof (o_lt_order o) as MO.
  destruct (Z.eq_dec (mcmp o a b) 0) as [E|N]; [apply A2; exact E|]. assert (L : o_lt o a b) by (apply A1; lia). apply B3 in L. lia.
Qed.

(** * Selection *)
Lemma npairs_le d l : (npairs d l <= length l)%nat.
Proof. induction l as [|q l IH]; cbn [npairs length]; [lia|]. destruct (d <? s_deg q); lia. Qed.
Lemma npairs_deg d l q : In q (firstn (npairs d l) l) -> s_deg q <= d.
Proof. induction l as [|x l IH]; cbn [npairs]; [intros []|]. destruct (Z.ltb_spec d (s_deg x)); [intros []|]. cbn [firstn]. intros [<-|H']; [lia|auto]. Qed.
Lemma more_pairs_le stale l lcm cnt : forall nps, (nps <= more_pairs stale l lcm cnt nps <= nps + cnt)%nat.
Proof. induction cnt as [|c IH]; intros nps; cbn [more_pairs]; [lia|]. destruct (mono_eqb _ lcm); [|lia]. specialize (IH (S nps)). lia. Qed.
Lemma nselect_le mnsel stale q l : (1 <= mnsel)%nat -> (1 <= nselect mnsel stale (q :: l) <= npairs (s_deg q) (q :: l))%nat.
Proof.
  intros H. unfold nselect. assert (1 <= npairs (s_deg q) (q :: l))%nat by (cbn [npairs]; rewrite Z.ltb_irrefl; lia).
  destruct (Nat.ltb_spec mnsel (npairs (s_deg q) (q :: l))) as [L|L]; [|lia]. destruct (nth_error (q :: l) mnsel) as [x|]; [|lia].
  pose proof (more_pairs_le stale (q :: l) (s_lcm x) (npairs (s_deg q) (q :: l) - mnsel) mnsel). lia.
Qed.
Definition sorted_pairs (o : ordering) (l : list spair) : Prop := ForallOrdPairs (fun a b => sp_le o a b = true) l.
Fixpoint contig (l : list spair) : Prop :=
  match l with
  | [] => True
  | q :: l' => contig l' /\ match l' with [] => True | h :: _ => (exists x, In x l' /\ s_lcm x = s_lcm q) -> s_lcm h = s_lcm q end
  end.
Lemma sp_le_between o a b c : o_ok o -> length (s_lcm a) = o_nv o -> length (s_lcm b) = o_nv o -> ((0 < o_nev o)%nat -> s_deg a = s_deg b /\ s_deg b = s_deg c) ->
  sp_le o a b = true -> sp_le o b c = true -> s_lcm c = s_lcm a -> s_lcm b = s_lcm a.
Proof.
  intros Ho La Lb Hd H1 H2 E. assert (K : mcmp o (s_lcm a) (s_lcm b) <= 0 -> mcmp o (s_lcm b) (s_lcm a) <= 0 -> s_lcm b = s_lcm a) by (intros; symmetry; apply (mcmp_antisym o); assumption).
  unfold sp_le in *. destruct (Nat.ltb_spec 0 (o_nev o)) as [L|L].
  - destruct (Hd L) as [D1 D2]. rewrite D1, D2, !Z.eqb_refl in *. rewrite E in H2. apply K; apply Z.leb_le; assumption.
  - destruct (o_mo o =? 1)%nat.
    + rewrite E in H2. destruct (Z.eqb_spec (tdeg (s_lcm a)) (tdeg (s_lcm b))) as [D1|D1].
      * rewrite <- D1, Z.eqb_refl in H2. apply K; apply Z.leb_le; assumption.
      * destruct (Z.eqb_spec (tdeg (s_lcm b)) (tdeg (s_lcm a))); [lia|]. apply Z.ltb_lt in H1, H2. lia.
    + rewrite E in H2. apply K; apply Z.leb_le; assumption.
Qed.
Lemma sorted_contig o l : o_ok o -> (forall q, In q l -> length (s_lcm q) = o_nv o) -> ((0 < o_nev o)%nat -> forall q q', In q l -> In q' l -> s_deg q = s_deg q') -> sorted_pairs o l -> contig l.
Proof.
  intros Ho. induction l as [|q l IH]; intros HL HD HS; [exact I|]. inversion HS as [|? ? H1 H2]; subst. split.
  - apply IH; [intros x Hx; apply HL; right; exact Hx|intros L x y Hx Hy; apply HD; [exact L|right|right]; assumption|exact H2].
  - destruct l as [|h l]; [exact I|]. intros (x & Hx & E). destruct Hx as [<-|Hx]; [exact E|]. inversion H2 as [|? ? H3 H4]; subst. rewrite Forall_forall in H1, H3.
    apply (sp_le_between o q h x Ho); [apply HL; left; reflexivity|apply HL; right; left; reflexivity| |apply H1; left; reflexivity|apply H3; exact Hx|exact E].
    intros L. split; apply HD; cbn; auto.
Qed.
Lemma FOP_firstn {A} (R : A -> A -> Prop) l n : ForallOrdPairs R l -> ForallOrdPairs R (firstn n l).
Proof.
  intros H. revert n. induction H as [|a l H1 H2 IH]; intros [|n]; cbn; try constructor; [|apply IH]. apply Forall_forall. intros x Hx. rewrite Forall_forall in H1. apply H1. rewrite <- (firstn_skipn n l). apply in_or_app. left. exact Hx.
Qed.
Lemma firstn_incl {A} (l : list A) n m x : (n <= m)%nat -> In x (firstn n l) -> In x (firstn m l).
Proof. intros H Hx. replace n with (Nat.min n m) in Hx by lia. rewrite <- firstn_firstn in Hx. rewrite <- (firstn_skipn n (firstn m l)). apply in_or_app. left. exact Hx. Qed.
Lemma select_contig o l mnsel stale : o_ok o -> (1 <= mnsel)%nat -> (forall q, In q l -> length (s_lcm q) = o_nv o) -> sorted_pairs o l -> contig (firstn (nselect mnsel stale l) l).
Proof.
  intros Ho Hm HL HS. assert (Inl : forall x n, In x (firstn n l) -> In x l) by (intros x n Hx; rewrite <- (firstn_skipn n l); apply in_or_app; left; exact Hx).
  apply (sorted_contig o); [exact Ho|intros q Hq; apply HL; eapply Inl; exact Hq| |apply FOP_firstn; exact HS].
  intros L. assert (Dall : forall q, In q (firstn (nselect mnsel stale l) l) -> s_deg q = s_deg (hd q l)).
  { destruct l as [|h l]; [intros q Hq; rewrite firstn_nil in Hq; destruct Hq|]. intros q Hq. cbn [hd]. pose proof (nselect_le mnsel stale h l Hm) as HN. pose proof (Inl q _ Hq) as Iq. apply (firstn_incl _ _ (npairs (s_deg h) (h :: l))) in Hq; [|lia].
    apply npairs_deg in Hq. destruct Iq as [->|Iq]; [reflexivity|]. inversion HS as [|? ? H1 H2]; subst. rewrite Forall_forall in H1. specialize (H1 q Iq). unfold sp_le in H1. destruct (Nat.ltb_spec 0 (o_nev o)); [|lia].
    destruct (Z.eqb_spec (s_deg h) (s_deg q)); [congruence|]. apply Z.ltb_lt in H1. lia. }
  intros q q' Hq Hq'. rewrite (Dall q Hq), (Dall q' Hq'). destruct l; [rewrite firstn_nil in Hq; destruct Hq|reflexivity].
Qed.

(** * Runs of pairs with the same lcm *)
Lemma runs_spec l : (forall m gs, In (m, gs) (runs l) -> gs <> [] /\ (exists q, In q l /\ s_lcm q = m) /\ forall g, In g gs -> exists q, In q l /\ s_lcm q = m /\ (g = s_g1 q \/ g = s_g2 q)) /\
  (forall q, In q l -> exists gs, In (s_lcm q, gs) (runs l) /\ In (s_g1 q) gs /\ In (s_g2 q) gs) /\
  match l with [] => True | h :: _ => exists gs r, runs l = (s_lcm h, gs) :: r end.
Proof.
  induction l as [|q l (IH1 & IH2 & IH3)]; [cbn; split; [intros m gs []|split; [intros q []|exact I]]|]. cbn [runs].
  assert (One : forall r, (forall m gs, In (m, gs) r -> In (m, gs) (runs l)) -> (forall m gs, In (m, gs) (runs l) -> In (m, gs) r) ->
    (forall m gs, In (m, gs) ((s_lcm q, [s_g1 q; s_g2 q]) :: r) -> gs <> [] /\ (exists q0, In q0 (q :: l) /\ s_lcm q0 = m) /\ forall g, In g gs -> exists q0, In q0 (q :: l) /\ s_lcm q0 = m /\ (g = s_g1 q0 \/ g = s_g2 q0)) /\
    (forall q0, In q0 (q :: l) -> exists gs, In (s_lcm q0, gs) ((s_lcm q, [s_g1 q; s_g2 q]) :: r) /\ In (s_g1 q0) gs /\ In (s_g2 q0) gs) /\
    exists gs r0, (s_lcm q, [s_g1 q; s_g2 q]) :: r = (s_lcm q, gs) :: r0).
  { intros r Hr Hr'. split; [|split].
    - intros m gs [E|H]; [injection E as <- <-; split; [discriminate|]; split; [exists q; cbn; auto|]; intros g [<-|[<-|[]]]; exists q; cbn; auto|].
      destruct (IH1 m gs (Hr m gs H)) as (A & (x & B1 & B2) & C). split; [exact A|]. split; [exists x; cbn; auto|]. intros g Hg. destruct (C g Hg) as (y & C1 & C2 & C3). exists y. cbn. auto.
    - intros x [<-|Hx]; [exists [s_g1 q; s_g2 q]; cbn; auto|]. destruct (IH2 x Hx) as (gs & G1 & G2 & G3). exists gs. split; [right; apply Hr'; exact G1|auto].
    - eauto. }
  destruct (runs l) as [|[m gs] r] eqn:Er; [apply One; auto|]. destruct (mono_eqb (s_lcm q) m) eqn:Em; [|apply One; auto].
  apply mono_eqb_iff in Em. split; [|split].
  - intros m' gs' [E|H].
    + injection E as <- <-. split; [discriminate|]. split; [exists q; cbn; auto|]. intros g [<-|[<-|Hg]]; [exists q; cbn; auto|exists q; cbn; auto|]. destruct (IH1 m gs (or_introl eq_refl)) as (_ & _ & C). destruct (C g Hg) as (y & C1 & C2 & C3). exists y. cbn. auto.
    + destruct (IH1 m' gs' (or_intror H)) as (A & (x & B1 & B2) & C). split; [exact A|]. split; [exists x; cbn; auto|]. intros g Hg. destruct (C g Hg) as (y & C1 & C2 & C3). exists y. cbn. auto.
  - intros x [<-|Hx]; [eexists; split; [left; rewrite Em; reflexivity|cbn; auto]|]. destruct (IH2 x Hx) as (gs' & [E|G1] & G2 & G3).
    + injection E as <- <-. eexists. split; [left; reflexivity|]. cbn. auto.
    + exists gs'. split; [right; exact G1|auto].
  - rewrite Em. eauto.
Qed.
Lemma runs_nodup l : contig l -> NoDup (map fst (runs l)).
Proof.
  induction l as [|q l IH]; intros H; [constructor|]. destruct H as [H1 H2]. specialize (IH H1). destruct (runs_spec l) as (R1 & R2 & R3). cbn [runs]. destruct (runs l) as [|[m gs] r] eqn:Er; [cbn; constructor; [intros []|constructor]|].
  destruct (mono_eqb (s_lcm q) m) eqn:Em; [exact IH|]. cbn [map fst]. cbn [map fst] in IH. constructor; [|exact IH].
  intros K. assert (K' : In (s_lcm q) (map fst ((m, gs) :: r))) by exact K. apply in_map_iff in K' as ((m' & gs') & E & Hin). cbn in E. subst m'. destruct (R1 _ _ Hin) as (_ & (x & Hx & Ex) & _). destruct l as [|h l]; [destruct Hx|].
  destruct R3 as (gs0 & r0 & E0). injection E0 as Em0 _ _. assert (s_lcm h = s_lcm q) by (apply H2; exists x; auto). assert (mono_eqb (s_lcm q) m = true) by (apply mono_eqb_iff; congruence). congruence.
Qed.
Lemma skip_equal_in l : forall x y, In y (x :: skip_equal x l) <-> In y (x :: l).
Proof.
  induction l as [|z l IH]; intros x y; [reflexivity|]. cbn [skip_equal]. destruct (Nat.eqb_spec z x) as [->|]; [rewrite IH; cbn; intuition|]. specialize (IH z y). cbn [In] in *. intuition.
Qed.
Lemma gens_of_in l x : In x (gens_of l) <-> In x l.
Proof.
  unfold gens_of. pose proof (sort_perm Nat.leb l) as HP. destruct (sort_by Nat.leb l) as [|y l'].
  - apply Permutation_nil in HP. subst. reflexivity.
  - rewrite skip_equal_in. split; apply Permutation_in; [exact HP|symmetry; exact HP].
Qed.
Lemma gens_of_nil l : l <> [] -> gens_of l <> [].
Proof. destruct l as [|x l]; [congruence|]. intros _ E. assert (In x (gens_of (x :: l))) by (apply gens_of_in; left; reflexivity). rewrite E in H. destruct H. Qed.

(** * The matrix of a round *)
Record matrix_spec (c : config) (b : basis) (sel : list spair) (sht leads : list mono) (rr tr : list (list (Z * mono))) : Prop := {
  ms_nd : NoDup sht;
  ms_len : forall m, In m sht -> length m = o_nv (c_o c);
  ms_lnd : NoDup leads;
  ms_sub : forall m, In m leads -> In m sht;
  ms_perm : Permutation (map lmono rr) leads;
  ms_rr : forall r, In r rr -> mrow (o_nv (c_o c)) (b_el b) r /\ forall t, In t r -> In (snd t) sht;
  ms_tr : forall r, In r tr -> mrow (o_nv (c_o c)) (b_el b) r /\ (forall t, In t r -> In (snd t) sht) /\ In (lmono r) leads;
  ms_closed : forall m, In m sht -> In m leads \/ ~ divis (b_el b) (b_lmps b) m;
  ms_pairs : forall q i g, In q sel -> i = s_g1 q \/ i = s_g2 q -> nth_error (b_el b) i = Some g -> In (mulp (mquo (s_lcm q) (e_lm g)) (e_pol g)) (rr ++ tr) }.
Record sel_spec (c : config) (r : nat) (ps sel rest : list spair) : Prop := {
  ss_perm : Permutation ps (sel ++ rest);
  ss_ne : ps <> [] -> sel <> [] }.
Definition sort_ok (o : ordering) (srt : list spair -> list spair) : Prop := forall l, Permutation (srt l) l /\ ((forall q, In q l -> length (s_lcm q) = o_nv o) -> sorted_pairs o (srt l)).

Lemma round_matrix_ok c r b ps Dn : o_ok (c_o c) -> 1 < c_p c -> (1 <= c_mnsel c)%nat -> sort_ok (c_o c) (c_sort c r) -> uinv (o_nv (c_o c)) b ps Dn -> els_ok (o_nv (c_o c)) (o_lt (c_o c)) (c_p c) (b_el b) -> ps <> [] ->
  exists N, forall fuel, okn fuel N (round_matrix c fuel r b ps) (fun a => let '(rest, cols, (rr, tr)) := a in
    exists sel sht leads, sel_spec c r ps sel rest /\ cols = columns (c_o c) sht leads /\ matrix_spec c b sel sht leads rr tr).
Proof.
  intros Ho Hp Hm HSort U HE Hne. set (o := c_o c) in *. set (nv := o_nv o). set (p := c_p c) in *. set (els := b_el b) in *. pose proof (o_lt_order o) as MO. fold nv in MO.
  destruct (HSort ps) as [SP SS]. set (l := c_sort c r ps) in *. set (n := nselect (c_mnsel c) (c_stale c r) l). set (sel := firstn n l).
  assert (Lps : forall q, In q ps -> length (s_lcm q) = nv).
  { intros q Hq. destruct (ui_ps _ _ _ _ U q Hq) as (H1 & H2 & H3 & _). rewrite H3. assert (G : forall i, (i < length els)%nat -> length (Lm els i) = nv) by (intros i Hi; unfold Lm; apply (ui_els _ _ _ _ U); apply nth_In; exact Hi). rewrite mlcm_length; rewrite !G; auto. }
  specialize (SS Lps).
  assert (Inl : forall q, In q l -> In q ps) by (intros q; apply Permutation_in; exact SP).
  assert (Insel : forall q, In q sel -> In q ps) by (intros q Hq; apply Inl; rewrite <- (firstn_skipn n l); apply in_or_app; left; exact Hq).
  assert (CT : contig sel) by (apply (select_contig o); auto).
  assert (SelS : sel_spec c r ps sel (skipn n l)).
  { constructor; [unfold sel; rewrite firstn_skipn; symmetry; exact SP|]. intros _. destruct l as [|h l'] eqn:El; [apply Permutation_nil in SP; congruence|]. pose proof (nselect_le (c_mnsel c) (c_stale c r) h l' Hm) as HN. fold n in HN. unfold sel. destruct n; [lia|]. discriminate. }
  unfold round_matrix. fold o. fold l. fold n. fold sel. set (rs := runs sel). destruct (runs_spec sel) as (R1 & R2 & _). fold rs in R1, R2. pose proof (runs_nodup sel CT) as RN. fold rs in RN. fold els.
  assert (Run : forall m gs, In (m, gs) rs -> length m = nv /\ forall i, In i gs -> exists g, nth_error els i = Some g /\ mdvd (e_lm g) m).
  { intros m gs Hin. destruct (R1 m gs Hin) as (_ & (q0 & Hq0 & E0) & H). split; [rewrite <- E0; apply Lps; auto|]. intros i Hi. destruct (H i Hi) as (q & Hq & E & Hg). destruct (ui_ps _ _ _ _ U q (Insel q Hq)) as (H1 & H2 & H3 & _). fold els in H1, H2, H3.
    assert (Li : (i < length els)%nat) by (destruct Hg; subst i; assumption). destruct (nth_error els i) as [g|] eqn:Eg; [|apply nth_error_None in Eg; lia]. exists g. split; [reflexivity|]. rewrite <- (Lm_nth _ _ _ Eg), <- E, H3.
    assert (G : forall k, (k < length els)%nat -> length (Lm els k) = nv) by (intros k Hk; unfold Lm; apply (ui_els _ _ _ _ U); apply nth_In; exact Hk).
    destruct Hg; subst i; [apply mlcm_dvd_l|apply mlcm_dvd_r]; rewrite !G; auto. }
  set (RP := fun (m : mono) (i : nat) (rw : list (Z * mono)) => mrow nv els rw /\ lmono rw = m /\ forall g, nth_error els i = Some g -> rw = mulp (mquo m (e_lm g)) (e_pol g)).
  assert (K1 : okl (rmap (run_rows els) rs) (fun rows => Forall2 (fun run rl => Forall2 (RP (fst run)) (gens_of (snd run)) rl) rs rows)).
  { apply okl_rmap. intros [m gs] Hin. destruct (Run m gs Hin) as [Lm_ Hg]. unfold run_rows. cbn [fst snd]. apply okl_rmap. intros i Hi. apply (proj1 (gens_of_in _ _)) in Hi. destruct (Hg i Hi) as (g & Eg & Hd).
    eapply okl_imp; [apply (row_at_ok nv (o_lt o) p els m i g); auto|]. intros rw (A1 & A2 & A3). split; [exact A1|]. split; [exact A2|]. intros g' Eg'. rewrite Eg in Eg'. injection Eg' as <-. exact A3. }
  destruct (rmap (run_rows els) rs) as [rows| | |]; cbn [okl rbind] in *; [|exists O; intros; exact I|contradiction|contradiction].
  assert (K2 : okl (rmap (fun rl : list (list (Z * mono)) => of_opt (hd_error rl)) rows) (fun rr0 => Forall2 (fun rl rw => hd_error rl = Some rw) rows rr0)).
  { apply okl_rmap. intros rl Hrl. destruct (F2_in_r _ _ _ _ K1 Hrl) as ([m gs] & Hin & F2). cbn [fst snd] in F2. destruct rl as [|rw rl]; [|cbn; reflexivity]. destruct (R1 m gs Hin) as (Hg & _). apply gens_of_nil in Hg. inversion F2; congruence. }
  destruct (rmap _ rows) as [rr0| | |]; cbn [okl rbind] in K2 |- *; [|exists O; intros; exact I|contradiction|contradiction].
  set (tr := concat (map (tl (A:=list (Z * mono))) rows)). set (sht := sht_rows [] (concat rows)).
  assert (RowsIn : forall rw, In rw (concat rows) -> mrow nv els rw /\ In (lmono rw) (map fst rs)).
  { intros rw Hrw. apply in_concat in Hrw as (rl & Hrl & Hrw). destruct (F2_in_r _ _ _ _ K1 Hrl) as ([m gs] & Hin & F2). destruct (F2_in_r _ _ _ _ F2 Hrw) as (i & Hi & A1 & A2 & _). split; [exact A1|]. rewrite A2. apply (in_map fst) in Hin. exact Hin. }
  assert (Rr0 : forall rw, In rw rr0 -> In rw (concat rows)).
  { intros rw Hrw. destruct (F2_in_r _ _ _ _ K2 Hrw) as (rl & Hrl & E). apply in_concat. exists rl. split; [exact Hrl|]. destruct rl; [discriminate|]. injection E as <-. left. reflexivity. }
  assert (Tr : forall rw, In rw tr -> In rw (concat rows)).
  { intros rw Hrw. apply in_concat in Hrw as (x & Hx & Hrw). apply in_map_iff in Hx as (rl & <- & Hrl). apply in_concat. exists rl. split; [exact Hrl|]. destruct rl; [exact Hrw|right; exact Hrw]. }
  assert (Split : forall rw, In rw (concat rows) -> In rw rr0 \/ In rw tr).
  { intros rw Hrw. apply in_concat in Hrw as (rl & Hrl & Hrw). destruct (F2_in_l _ _ _ _ K2 Hrl) as (h & Hh & E). destruct rl as [|x rl]; [discriminate|]. injection E as ->. destruct Hrw as [->|Hrw]; [left; exact Hh|]. right. apply in_concat. exists rl. split; [|exact Hrw]. apply in_map_iff. exists (h :: rl). auto. }
  assert (ShtIn : forall m, In m sht <-> exists rw (t : Z * mono), In rw (concat rows) /\ In t rw /\ snd t = m) by (intros m; unfold sht; rewrite sht_rows_in; cbn; intuition).
  assert (ShtLen : forall m, In m sht -> length m = nv).
  { intros m H. apply ShtIn in H as (rw & t & Hrw & Ht & <-). destruct (RowsIn rw Hrw) as [A _]. apply (mpoly_terms nv (o_lt o) p rw t); [|exact Ht]. eapply mrow_mpoly; eassumption. }
  assert (Heads : map lmono rr0 = map fst rs).
  { clear - K1 K2. revert rr0 K2. induction K1 as [|[m gs] rl rs' rows' H1 H2 IH]; intros rr0 K2; inversion K2 as [|? h ? rt Eh K2']; subst; [reflexivity|]. cbn [map fst]. f_equal; [|apply IH; assumption]. destruct rl; [discriminate|]. injection Eh as ->. destruct (F2_in_r _ _ _ _ H1 (or_introl eq_refl)) as (i & _ & _ & E & _). exact E. }
  assert (SkipIn : forall m, In m (map fst rs) -> In m sht).
  { intros m Hm'. rewrite <- Heads in Hm'. apply in_map_iff in Hm' as (rw & <- & Hrw). apply ShtIn. pose proof (Rr0 rw Hrw) as Hc. destruct (RowsIn rw Hc) as [A _]. destruct (mpoly_lm_in nv (o_lt o) p rw) as (t & Ht & E); [eapply mrow_mpoly; eassumption|]. exists rw, t. auto. }
  assert (HL : forall i, In i (b_lmps b) -> (i < length els)%nat) by (intros i Hi; apply (ui_lmps _ _ _ _ U) in Hi; pose proof (ui_lo _ _ _ _ U); fold els in H; lia).
  assert (SI0 : SI nv els (b_lmps b) (map fst rs) (length sht) rr0 0 sht (map fst rs) rr0).
  { constructor.
    - apply sht_rows_nd. constructor.
    - exact ShtLen.
    - intros m Hm'. apply SkipIn in Hm'. apply In_nth_error in Hm' as (j & Hj). exists j. split; [apply nth_error_Some; congruence|exact Hj].
    - exact RN.
    - intros m Hm'. pose proof (SkipIn m Hm') as K. apply In_nth_error in K as (j & Hj). exists j. split; [exact Hj|]. right. split; [apply nth_error_Some; congruence|exact Hm'].
    - rewrite Heads. reflexivity.
    - intros rw Hrw. pose proof (Rr0 rw Hrw) as Hc. split; [apply RowsIn; exact Hc|]. intros t Ht. apply ShtIn. exists rw, t. auto.
    - exists []. split; [rewrite app_nil_r; reflexivity|]. intros x [].
    - intros j m Hj. lia. }
  destruct (closure_join nv els (b_lmps b) sht) as (C & C1 & C2 & C3); [intros m Hm'; apply (closure_exists nv (o_lt o) p); auto|].
  exists (length C). intros fuel. pose proof (symb_ok nv (o_lt o) p MO els (b_lmps b) HE HL (map fst rs) (length sht) rr0 C C2 fuel 0 sht (map fst rs) rr0 SI0 C1) as SO. rewrite Nat.sub_0_r in SO.
  eapply okn_bind; [exact SO|]. intros [[sht' leads] rr] (B1 & B2 & B3 & B4 & B5 & B6 & B7 & B8 & B9 & B10). cbn [okn].
  exists sel, sht', leads. split; [exact SelS|]. split; [reflexivity|]. constructor; auto; fold o nv els.
  - intros rw Hrw. pose proof (Tr rw Hrw) as Hc. destruct (RowsIn rw Hc) as [A1 A2]. split; [exact A1|]. split; [|apply B5; exact A2]. intros t Ht. apply B3. apply ShtIn. exists rw, t. auto.
  - intros m Hm'. destruct (B10 m Hm') as [H|[H|H]]; [left; exact H|left; apply B5; exact H|right; exact H].
  - intros q i g Hq Hi Eg. destruct (R2 q Hq) as (gs & G1 & G2 & G3). assert (Hig : In i (gens_of gs)) by (apply gens_of_in; destruct Hi; subst i; assumption).
    destruct (F2_in_l _ _ _ _ K1 G1) as (rl & Hrl & F2). cbn [fst snd] in F2. destruct (F2_in_l _ _ _ _ F2 Hig) as (rw & Hrw & _ & _ & E). rewrite <- (E g Eg). assert (Hc : In rw (concat rows)) by (apply in_concat; exists rl; auto).
    apply in_or_app. destruct (Split rw Hc) as [H|H]; [|right; exact H]. left. destruct B9 as (rr1 & -> & _). apply in_or_app. left. exact H.
Qed.
