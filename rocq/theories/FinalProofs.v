(** Removal of redundant elements and final reduction. *)
From Coq Require Import ZArith NArith Arith List Bool Lia Permutation Sorted Znumtheory.
From Verif Require Import LinSpec MonoSpec MonoModel MonoSpecProofs MonoCmpProofs GbSpec GbProofs GbIdeal LaModel LaSpec LaProofs LaRowProofs LaSysProofs LaProps F4Model UpdProofs F4Rows SymbProofs SelProofs MatProofs RoundProofs.
Import ListNotations.
Open Scope Z_scope.

Lemma F2_comp {A B C} (R : A -> B -> Prop) (T : B -> C -> Prop) l1 l2 l3 : Forall2 R l1 l2 -> Forall2 T l2 l3 -> Forall2 (fun a c => exists b, R a b /\ T b c) l1 l3.
Proof. intros H. revert l3. induction H as [|a b l1 l2 H H' IH]; intros l3 H3; inversion H3 as [|? d ? ds H4 H5]; subst; constructor; [exists b; auto|auto]. Qed.

(** * Redundant elements *)
Section Redundant.
Variables (els : list elt) (lmps : list nat) (lo : nat).
Hypothesis Lnd : NoDup lmps.
Hypothesis Llt : forall i, In i lmps -> (i < length els)%nat.
Definition dominated (red : list bool) : Prop := forall i, (i < length els)%nat -> exists r, In r lmps /\ isred red r = false /\ mdvd (Lm els r) (Lm els i).
Definition lens_ok nv := forall i, (i < length els)%nat -> length (Lm els i) = nv.
Lemma isred_nth red i : isred red i = match nth_error red i with Some x => x | None => false end.
Proof. unfold isred. destruct (nth_error red i) as [x|] eqn:E; [rewrite (nth_error_nth _ _ _ E); reflexivity|]. apply nth_error_None in E. apply nth_overflow. exact E. Qed.
Lemma isred_lset red k i : (k < length red)%nat -> isred (lset red k true) i = if (i =? k)%nat then true else isred red i.
Proof. intros H. rewrite !isred_nth, nth_lset. destruct (Nat.eqb_spec i k) as [->|N]; [|reflexivity]. destruct (nth_error red k) eqn:E; [reflexivity|]. apply nth_error_None in E. lia. Qed.
Lemma red_step_len red i : length (red_step els lmps red i) = length red.
Proof. unfold red_step. destruct (nth_error lmps i); [|reflexivity]. destruct (existsb _ _); [apply lset_len|reflexivity]. Qed.
Lemma Lm_match i : match nth_error els i with Some g => e_lm g | None => [] end = Lm els i.
Proof. unfold Lm. destruct (nth_error els i) as [g|] eqn:E; [rewrite (nth_error_nth _ _ _ E); reflexivity|]. apply nth_error_None in E. rewrite nth_overflow by exact E. reflexivity. Qed.
Variable nv : nat.
Hypothesis Hlen : lens_ok nv.
Definition killer (red : list bool) (i : nat) : Prop := exists j kj k, nth_error lmps i = Some k /\ j <> i /\ nth_error lmps j = Some kj /\ isred red kj = false /\ mdvd (Lm els kj) (Lm els k).
Lemma red_step_spec red i : length red = length els -> (exists k, nth_error lmps i = Some k /\ killer red i /\ red_step els lmps red i = lset red k true) \/ ~ killer red i /\ red_step els lmps red i = red.
Proof.
  intros Hr. unfold red_step. destruct (nth_error lmps i) as [k|] eqn:Ek; [|right; split; [intros (j & kj & k & H & _); congruence|reflexivity]].
  assert (Lk : (k < length els)%nat) by (apply Llt; eapply nth_error_In; eassumption).
  destruct (existsb _ _) eqn:Eb.
  - left. exists k. split; [reflexivity|]. split; [|reflexivity]. apply existsb_exists in Eb as (j & _ & Hj). apply andb_prop in Hj as [H1 H2]. destruct (nth_error lmps j) as [kj|] eqn:Ej; [|discriminate]. apply andb_prop in H2 as [H2 H3].
    assert (Lkj : (kj < length els)%nat) by (apply Llt; eapply nth_error_In; eassumption). exists j, kj, k. split; [exact Ek|]. split; [intros ->; rewrite Nat.eqb_refl in H1; discriminate|]. split; [exact Ej|]. split; [apply negb_true_iff; exact H2|].
    rewrite Lm_match in H3. destruct (nth_error els kj) as [g|] eqn:Eg; [|discriminate]. rewrite <- (Lm_nth _ _ _ Eg) in H3. apply mdvdb_iff in H3; [exact H3|]. rewrite !Hlen; auto.
  - right. split; [|reflexivity]. intros (j & kj & k' & H1 & H2 & H3 & H4 & H5). rewrite Ek in H1. injection H1 as <-. assert (K : existsb (fun j => negb (j =? i)%nat && match nth_error lmps j with Some kj => negb (isred red kj) && match nth_error els kj with Some g => mdvdb (e_lm g) (match nth_error els k with Some g0 => e_lm g0 | None => [] end) | None => false end | None => false end) (seq 0 (length lmps)) = true); [|rewrite K in Eb; discriminate].
    apply existsb_exists. exists j. split; [apply in_seq; split; [lia|]; apply nth_error_Some; congruence|]. apply andb_true_intro. split; [apply negb_true_iff, Nat.eqb_neq; exact H2|]. rewrite H3, H4. cbn [negb andb]. assert (Lkj : (kj < length els)%nat) by (apply Llt; eapply nth_error_In; eassumption).
    rewrite Lm_match. destruct (nth_error els kj) as [g|] eqn:Eg; [|apply nth_error_None in Eg; lia]. rewrite <- (Lm_nth _ _ _ Eg). apply mdvdb_iff; [rewrite !Hlen; auto|exact H5].
Qed.
Lemma red_steps_spec l : forall red, length red = length els -> dominated red ->
  let red' := fold_left (red_step els lmps) l red in
  length red' = length els /\ dominated red' /\ (forall i, isred red i = true -> isred red' i = true) /\ (forall i k, In i l -> nth_error lmps i = Some k -> isred red' k = false -> ~ killer red' i).
Proof.
  induction l as [|i l IH]; intros red Hr Hd; cbn [fold_left]; [split; [exact Hr|]; split; [exact Hd|]; split; [auto|]; intros i k []|].
  set (r1 := red_step els lmps red i). assert (R1 : length r1 = length els) by (unfold r1; rewrite red_step_len; exact Hr).
  assert (Inc : forall x, isred red x = true -> isred r1 x = true).
  { intros x Hx. destruct (red_step_spec red i Hr) as [(k & Ek & _ & E)|[_ E]]; unfold r1; rewrite E; [|exact Hx]. rewrite isred_lset; [destruct (x =? k)%nat; auto|]. rewrite Hr. apply Llt. eapply nth_error_In; eassumption. }
  assert (D1 : dominated r1).
  { destruct (red_step_spec red i Hr) as [(k & Ek & (j & kj & k' & E1 & E2 & E3 & E4 & E5) & E)|[_ E]]; unfold r1; rewrite E; [|exact Hd]. rewrite Ek in E1. injection E1 as <-. intros x Hx. destruct (Hd x Hx) as (rr & Rr & Rn & Rd). assert (Lk : (k < length red)%nat) by (rewrite Hr; apply Llt; eapply nth_error_In; eassumption).
    assert (Nk : kj <> k) by (intros ->; apply E2; apply (proj1 (NoDup_nth_error lmps) Lnd); [apply nth_error_Some; congruence|congruence]).
    destruct (Nat.eq_dec rr k) as [->|N].
    - exists kj. split; [eapply nth_error_In; eassumption|]. split; [rewrite isred_lset by exact Lk; destruct (Nat.eqb_spec kj k); [contradiction|exact E4]|]. eapply mdvd_trans; eassumption.
    - exists rr. split; [exact Rr|]. split; [rewrite isred_lset by exact Lk; destruct (Nat.eqb_spec rr k); [contradiction|exact Rn]|exact Rd]. }
  destruct (IH r1 R1 D1) as (B1 & B2 & B3 & B4). cbn zeta. split; [exact B1|]. split; [exact B2|]. split; [auto|].
  intros x k [<-|Hx] Ek Hn; [|apply (B4 x k); auto]. set (red' := fold_left (red_step els lmps) l r1) in *. intros (j & kj & k' & E1 & E2 & E3 & E4 & E5).
  assert (Nr : forall z, isred red' z = false -> isred red z = false) by (intros z Hz; destruct (isred red z) eqn:Ez; [|reflexivity]; rewrite (B3 z (Inc z Ez)) in Hz; discriminate).
  destruct (red_step_spec red i Hr) as [(k2 & Ek2 & _ & E)|[K _]].
  - rewrite Ek in Ek2. injection Ek2 as <-. assert (Rk : isred r1 k = true) by (unfold r1; rewrite E, isred_lset, Nat.eqb_refl; [reflexivity|]; rewrite Hr; apply Llt; eapply nth_error_In; eassumption). apply B3 in Rk. congruence.
  - apply K. exists j, kj, k'. auto 8.
Qed.
End Redundant.

(** The kept elements: their leading monomials generate the same monomial ideal, none divides another. *)
Lemma final_lmps_spec nv b ps Dn : uinv nv b ps Dn -> b_lo b = length (b_el b) ->
  (forall i, In i (final_lmps b) -> (i < length (b_el b))%nat) /\ NoDup (final_lmps b) /\
  (forall i, (i < length (b_el b))%nat -> exists r, In r (final_lmps b) /\ mdvd (Lm (b_el b) r) (Lm (b_el b) i)) /\
  (forall r s, In r (final_lmps b) -> In s (final_lmps b) -> r <> s -> ~ mdvd (Lm (b_el b) r) (Lm (b_el b) s)).
Proof.
  intros U Hlo. set (els := b_el b) in *. set (lmps := b_lmps b). assert (Llt : forall i, In i lmps -> (i < length els)%nat) by (intros i Hi; apply (ui_lmps _ _ _ _ U) in Hi; lia).
  assert (Hl : lens_ok els nv) by (intros i Hi; unfold Lm; apply (ui_els _ _ _ _ U); apply nth_In; exact Hi).
  assert (D0 : dominated els lmps (b_red b)).
  { intros i Hi. destruct (isred (b_red b) i) eqn:E.
    - destruct (ui_dom _ _ _ _ U i Hi E) as (r & R1 & R2 & R3). exists r. split; [apply (ui_all _ _ _ _ U); [rewrite Hlo; exact R1|exact R2]|]. auto.
    - exists i. split; [apply (ui_all _ _ _ _ U); [rewrite Hlo; exact Hi|exact E]|]. split; [exact E|]. apply mdvd_refl. }
  destruct (red_steps_spec els lmps (ui_nodup _ _ _ _ U) Llt nv Hl (seq 0 (length lmps)) (b_red b) (ui_red _ _ _ _ U) D0) as (B1 & B2 & B3 & B4).
  unfold final_lmps. fold els lmps. set (red' := fold_left (red_step els lmps) (seq 0 (length lmps)) (b_red b)) in *.
  split; [intros i Hi; apply filter_In in Hi as [Hi _]; auto|]. split; [apply NoDup_filter; apply (ui_nodup _ _ _ _ U)|]. split.
  - intros i Hi. destruct (B2 i Hi) as (r & R1 & R2 & R3). exists r. split; [apply filter_In; split; [exact R1|rewrite R2; reflexivity]|exact R3].
  - intros r s Hr Hs N Hd. apply filter_In in Hr as [Hr Er]. apply filter_In in Hs as [Hs Es]. apply negb_true_iff in Er, Es. apply In_nth_error in Hr as (j & Hj). apply In_nth_error in Hs as (i & Hi).
    apply (B4 i s); [apply in_seq; split; [lia|]; apply nth_error_Some; congruence|exact Hi|exact Es|]. exists j, r, s. split; [exact Hi|]. split; [intros ->; congruence|]. auto.
Qed.

(** * Rows of the final reduction *)
Section FinalRows.
Variables (k : kern) (p : Z) (n : nat).
Hypothesis HP : prime p.
Hypothesis HK : in_class k p.
Hypothesis HC : columns_ok k p n.
Lemma one_row pivs (r : list (nat * Z)) c : pivots_ok p n pivs -> pivot_row p n c r -> pivs c = None ->
  exists dr dr' r', scatter n r = Some dr /\ reduce_known k p pivs 0 n c dr = Some (dr', Some ((c, 1) :: r')) /\
  canon p ((c, 1) :: r') /\ pivot_row p n c ((c, 1) :: r') /\ (forall j, pivs j <> None -> rv ((c, 1) :: r') j = 0) /\ span p (pset_of pivs) (fun j => rv r j - rv ((c, 1) :: r') j).
Proof.
  intros HPv PR Hc. pose proof (prime_ge_2 p HP) as P2. pose proof PR as (A1 & A2 & A3 & r0 & Er & A4). destruct (scatter_ok p n r P2 A1 A2 A3) as (dr & E1 & L1 & V1 & B1).
  assert (Lc : (c < n)%nat) by (apply (A3 (c, 1)); rewrite Er; left; reflexivity).
  assert (Z0 : forall j, (j < c)%nat -> dv dr j = 0) by (intros j Hj; rewrite V1; apply (pivot_below p n c r); assumption).
  destruct (reduce_known_ok k p n 0 c pivs dr (class_kern k p HK) (columns_room k p n HC) HPv) as (dr' & oo & E2 & L2 & B2 & Z2 & ZP & SP & Ho); [lia|exact L1|exact B1|exact Z0|intros; lia|].
  assert (C1 : dv dr c = 1) by (rewrite V1; apply (pivot_lead p n c r PR)).
  assert (Cc : dv dr' c = 1).
  { destruct (span_comb p n pivs _ HPv SP) as (a & Ha). assert (Az : forall c', (c' < S c)%nat -> pivs c' <> None -> eqp p (a c') 0).
    { apply (comb_coefs p n pivs a _ (S c) HPv Ha). intros c' Hc' Hn. destruct (Nat.eq_dec c' c) as [->|]; [congruence|]. rewrite Z0, Z2 by lia. reflexivity. }
    apply (eqp_small p); [apply B2|lia|]. specialize (Ha c). cbv beta in Ha. rewrite (comb_zero pivs p a n c) in Ha.
    - rewrite C1 in Ha. destruct Ha as (q & Hq). exists (- q). lia.
    - intros c' Hc'. destruct (Nat.lt_ge_cases c c') as [Hl|Hg]; [rewrite (rvo_below p n pivs c' c HPv Hl); exists 0; ring|]. destruct (pivs c') as [x|] eqn:Ex; [|cbn [rvo]; exists 0; unfold vzero; ring]. rewrite Az by (try lia; congruence). exists 0. ring. }
  destruct oo as [r1|]; [|specialize (Ho c); lia]. destruct Ho as (Hne & Can & V2 & Hin). destruct r1 as [|[c1 x1] r1]; [congruence|]. pose proof Can as (Srt & Cf).
  assert (c1 = c).
  { destruct (Hin (c1, x1) (or_introl eq_refl)) as (_ & G & _). cbn [fst] in G. destruct (Nat.eq_dec c1 c) as [|N]; [assumption|]. exfalso. assert (K : rv ((c1, x1) :: r1) c = 0); [|rewrite V2 in K; lia]. cbn [map fst] in Srt. inversion Srt as [|? ? S1 S2]; subst. rewrite Forall_forall in S2.
    cbn [rv fst snd]. destruct (Nat.eqb_spec c1 c); [contradiction|]. assert (G2 : forall t, In t r1 -> (c < fst t)%nat) by (intros t Ht; specialize (S2 (fst t) (in_map fst _ _ Ht)); lia). clear - G2. induction r1 as [|t r1 IH]; [reflexivity|]. cbn [rv]. destruct (Nat.eqb_spec (fst t) c) as [E|E]; [specialize (G2 t (or_introl eq_refl)); lia|]. rewrite Z.add_0_l in *. apply IH. intros s Hs. apply G2. right. exact Hs. }
  subst c1. assert (G2 : forall t, In t r1 -> (c < fst t)%nat).
  { cbn [map fst] in Srt. inversion Srt as [|? ? S1 S2]; subst. rewrite Forall_forall in S2. intros t Ht. apply S2. apply in_map. exact Ht. }
  assert (x1 = 1).
  { pose proof (V2 c) as V. rewrite Cc in V. cbn [rv fst snd] in V. rewrite Nat.eqb_refl in V. assert (Zr : rv r1 c = 0); [|lia]. clear - G2. induction r1 as [|t r1 IH]; [reflexivity|]. cbn [rv]. destruct (Nat.eqb_spec (fst t) c) as [E|E]; [specialize (G2 t (or_introl eq_refl)); lia|]. rewrite IH; [reflexivity|]. intros s Hs. apply G2. right. exact Hs. }
  subst x1. exists dr, dr', r1. split; [exact E1|]. split; [exact E2|]. split; [exact Can|]. split; [|split].
  - split; [|split; [|split]].
    + clear - Srt. induction Srt as [|x l S1 IH S2]; constructor; [|exact IH]. intros K. rewrite Forall_forall in S2. specialize (S2 x K). lia.
    + intros t Ht. specialize (Cf t Ht). lia.
    + intros t Ht. apply (Hin t Ht).
    + exists r1. auto.
  - intros j Hj. rewrite V2. destruct (Nat.lt_ge_cases j c) as [Hl|Hg]; [apply Z2; exact Hl|apply ZP; assumption].
  - eapply span_eq; [exact SP|]. intros j. rewrite <- V1, V2. reflexivity.
Qed.

Definition out_row (pivs : nat -> option (list (nat * Z))) (tr : list (list (nat * Z))) (r r' : list (nat * Z)) : Prop :=
  canon p r' /\ pivot_row p n (hcol r) r' /\ (forall j, pivs j <> None -> rv r' j = 0) /\ (forall s, In s tr -> (hcol r < hcol s)%nat -> rv r' (hcol s) = 0) /\ span p (gens pivs tr) (rv r').
Lemma final_rows_ok tr : forall pivs, pivots_ok p n pivs -> (forall r, In r tr -> pivot_row p n (hcol r) r /\ pivs (hcol r) = None) -> ForallOrdPairs (fun a b => (hcol b < hcol a)%nat) tr ->
  exists l, final_rows k p n pivs tr = Ok l /\ Forall2 (out_row pivs tr) tr l.
Proof.
  induction tr as [|r tr IH]; intros pivs HPv HR HS; [exists []; split; [reflexivity|constructor]|]. destruct (HR r (or_introl eq_refl)) as [PR Hc]. set (c := hcol r) in *.
  destruct (one_row pivs r c HPv PR Hc) as (dr & dr' & r' & E1 & E2 & Can & PR' & Zp & SP). pose proof PR as (_ & _ & _ & r0 & Er & _).
  assert (S1 : Forall (fun b => (hcol b < hcol r)%nat) tr) by (inversion HS; assumption). assert (S2 : ForallOrdPairs (fun a b => (hcol b < hcol a)%nat) tr) by (inversion HS; assumption). rewrite Forall_forall in S1. set (pivs' := pset pivs c ((c, 1) :: r')).
  assert (Le : le_pivs pivs pivs') by (apply pset_fresh; exact Hc).
  destruct (IH pivs') as (l & El & Fl).
  - intros j x Hj. unfold pivs', pset in Hj. destruct (Nat.eqb_spec j c) as [->|]; [injection Hj as <-; exact PR'|]. apply HPv. exact Hj.
  - intros s Hs. destruct (HR s (or_intror Hs)) as [A B]. split; [exact A|]. unfold pivs', pset. destruct (Nat.eqb_spec (hcol s) c) as [E|E]; [specialize (S1 s Hs); cbv beta in S1; unfold c in E; lia|exact B].
  - exact S2.
  - exists (((c, 1) :: r') :: l). split.
    + cbn [final_rows]. rewrite Er. rewrite <- Er, E1. cbn [of_opt rbind fst]. rewrite E2. cbn [of_opt rbind snd]. rewrite Z.eqb_refl. cbn [rbind]. rewrite Hc. fold pivs'. rewrite El. reflexivity.
    + assert (Sr : span p (gens pivs (r :: tr)) (rv ((c, 1) :: r'))).
      { eapply span_eq; [apply (span_sub p _ (rv r) (fun j => rv r j - rv ((c, 1) :: r') j))|].
        - apply span_in. right. exists r. split; [left; reflexivity|reflexivity].
        - eapply span_mono; [|exact SP]. intros u Hu. apply span_in. left. exact Hu.
        - intros j. exists 0. ring. }
      constructor.
      * split; [exact Can|]. split; [exact PR'|]. split; [exact Zp|]. split; [|exact Sr]. intros s [<-|Hs] Hl; [fold c in Hl; lia|]. specialize (S1 s Hs). cbv beta in S1. fold c in S1, Hl. lia.
      * eapply F2_imp; [|exact Fl]. intros s s' Hs (A1 & A2 & A3 & A4 & A5). split; [exact A1|]. split; [exact A2|]. split; [|split].
        -- intros j Hj. apply A3. destruct (pivs j) as [x|] eqn:Ej; [|congruence]. rewrite (Le j x Ej). discriminate.
        -- intros x [<-|Hx] Hl; [|apply A4; assumption]. fold c. apply A3. unfold pivs', pset. rewrite Nat.eqb_refl. discriminate.
        -- eapply span_mono; [|exact A5]. intros u [(j & x & Hj & ->)|(x & Hx & ->)]; [|apply span_in; right; exists x; split; [right; exact Hx|reflexivity]]. unfold pivs', pset in Hj. destruct (Nat.eqb_spec j c) as [->|N]; [injection Hj as <-; exact Sr|]. apply span_in. left. exists j, x. auto.
Qed.
End FinalRows.

Section Final.
Variable c : config.
Hypothesis CK : cfg_ok c.
Let o := c_o c.
Let nv := o_nv o.
Let lt := o_lt o.
Let p := c_p c.
Let MO : mono_order nv lt := o_lt_order o.
Let Hp : 1 < p := cfg_p c CK.

Lemma row_piv hcm (f : list (Z * mono)) : NoDup hcm -> (forall m, In m hcm -> length m = nv) -> decreasing o hcm -> mpoly nv lt p f -> (forall t, In t f -> In (snd t) hcm) ->
  pivot_row p (length hcm) (pos (lmono f) hcm) (to_row hcm f) /\ hcol (to_row hcm f) = pos (lmono f) hcm.
Proof.
  intros HN HL HD Mf Hin. pose proof (sp_nodup nv lt p MO f (proj1 Mf)) as ND. split; [split; [|split; [|split]]|].
  - clear - ND Hin. induction f as [|t f IH]; [constructor|]. cbn [to_row map fst]. cbn [map] in ND. inversion ND; subst. constructor.
    + intros K. change (map _ (map _ f)) with (map fst (to_row hcm f)) in K. apply in_map_iff in K as ((c0 & x) & E & K). unfold to_row in K. apply in_map_iff in K as (s & E' & Hs). cbn in E. injection E' as E1 E2. apply H1. rewrite E in E1. apply pos_inj in E1; [|apply Hin; right; exact Hs|apply Hin; left; reflexivity]. rewrite <- E1. apply in_map. exact Hs.
    + apply IH; [intros s Hs; apply Hin; right; exact Hs|assumption].
  - intros t Ht. unfold to_row in Ht. apply in_map_iff in Ht as (s & <- & Hs). cbn [snd]. destruct (mpoly_terms nv lt p f s Mf Hs). lia.
  - intros t Ht. unfold to_row in Ht. apply in_map_iff in Ht as (s & <- & Hs). cbn [fst]. apply pos_lt. auto.
  - destruct Mf as (Sf & l & r & ->). cbn [to_row map fst snd lmono]. eexists. split; [reflexivity|]. intros t Ht. apply in_map_iff in Ht as (s & <- & Hs). cbn [fst]. apply (dec_pos o hcm l (snd s) HD HL); [apply (Hin (1, l)); left; reflexivity|apply Hin; right; exact Hs|]. apply (sp_tail nv lt p (1, l) r Sf s Hs).
  - destruct Mf as (_ & l & r & ->). reflexivity.
Qed.
(** a reduced row read back as a polynomial *)
Lemma row_poly hcm (r : list (nat * Z)) (f : list (Z * mono)) x : NoDup hcm -> (forall m, In m hcm -> length m = nv) -> decreasing o hcm -> canon p r -> pivot_row p (length hcm) x r ->
  Forall2 (fun t s => snd t = fst s /\ nth_error hcm (fst t) = Some (snd s)) r f ->
  mpoly nv lt p f /\ nth_error hcm x = Some (lmono f) /\ forall t, In t f -> exists j, nth_error hcm j = Some (snd t) /\ (j = x \/ (x < j)%nat) /\ rv r j <> 0.
Proof.
  intros HN HL HD (SC & CC) PR F. pose proof PR as (A1 & A2 & A3 & r1 & Er & A4).
  assert (Mon : forall t, In t f -> exists s, In s r /\ nth_error hcm (fst s) = Some (snd t) /\ fst t = snd s).
  { intros t Ht. destruct (F2_in_r _ _ _ _ F Ht) as (s & Hs & E1 & E2). exists s. auto. }
  split; [split|split].
  - split; [rewrite Er in F; inversion F; discriminate|]. split.
    + intros t Ht. destruct (Mon t Ht) as (s & Hs & E1 & E2). rewrite E2. split; [apply CC; exact Hs|]. apply HL. eapply nth_error_In. exact E1.
    + intros i j s t Hi Hj Hij. assert (Nth : forall i s, nth_error f i = Some s -> exists s0, nth_error r i = Some s0 /\ nth_error hcm (fst s0) = Some (snd s)).
      { clear - F. induction F as [|x0 y r f [F1 F2] F IH]; intros i s Hi; [destruct i; discriminate|]. destruct i as [|i]; [injection Hi as <-; exists x0; auto|]. apply IH. exact Hi. }
      destruct (Nth i s Hi) as (s0 & Hs0 & Es). destruct (Nth j t Hj) as (t0 & Ht0 & Et). assert (Lst : (fst s0 < fst t0)%nat).
      { clear - SC Hs0 Ht0 Hij. revert i j Hs0 Ht0 Hij. induction r as [|x0 r IH]; intros i j Hs0 Ht0 Hij; [destruct i; discriminate|]. cbn [map] in SC. inversion SC as [|? ? S1 S2]; subst. destruct j as [|j]; [lia|]. destruct i as [|i]; cbn in Hs0, Ht0.
        - injection Hs0 as <-. rewrite Forall_forall in S2. apply S2. apply in_map. eapply nth_error_In; eassumption.
        - apply (IH S1 i j); auto. lia. }
      apply (FOP_nth _ _ HD (fst s0) (fst t0)); [exact Lst|exact Es|exact Et].
  - rewrite Er in F. inversion F as [|x0 y ? ? [F1 F2] F']; subst. cbn in F1. destruct y as [y1 y2]. cbn in F1. subst y1. eexists _, _. reflexivity.
  - rewrite Er in F. inversion F as [|x0 y ? ? [F1 F2] F']; subst. cbn in F2 |- *. exact F2.
  - intros t Ht. destruct (Mon t Ht) as (s & Hs & E1 & E2). exists (fst s). split; [exact E1|]. split; [rewrite Er in Hs; destruct Hs as [<-|Hs]; [left; reflexivity|right; apply A4; exact Hs]|].
    assert (R : rv r (fst s) = snd s); [|rewrite R; specialize (CC s Hs); lia]. clear - A1 Hs. induction r as [|y r IH]; [destruct Hs|]. cbn [map] in A1. inversion A1; subst. cbn [rv]. destruct Hs as [->|Hs].
    + rewrite Nat.eqb_refl. assert (Z0 : rv r (fst s) = 0); [|lia]. clear - H1. induction r as [|y r IH]; [reflexivity|]. cbn [rv]. destruct (Nat.eqb_spec (fst y) (fst s)) as [E|E]; [exfalso; apply H1; left; exact E|]. rewrite IH; [reflexivity|]. intros K. apply H1. right. exact K.
    + rewrite IH by assumption. destruct (Nat.eqb_spec (fst y) (fst s)) as [E|E]; [exfalso; apply H1; rewrite E; apply in_map; exact Hs|lia].
Qed.

Definition kpolys (els : list elt) (K : list nat) : list (list (Z * mono)) := map (fun i => e_pol (nth i els dd)) K.
Lemma kpolys_ok els K : (forall i, In i K -> (i < length els)%nat) -> rmap (fun i => let! g := of_opt (nth_error els i) in Ok (e_pol g)) K = Ok (kpolys els K).
Proof.
  intros H. induction K as [|i K IH]; [reflexivity|]. cbn [rmap kpolys map]. destruct (nth_error els i) as [g|] eqn:E; [|apply nth_error_None in E; specialize (H i (or_introl eq_refl)); lia]. cbn [of_opt rbind]. rewrite IH by (intros j Hj; apply H; right; exact Hj). cbn [rbind]. rewrite (nth_error_nth _ _ dd E). reflexivity.
Qed.

Record final_spec (A G out : list (list (Z * mono))) : Prop := {
  fs_mpoly : forall f, In f out -> mpoly nv lt p f;
  fs_ideal : forall f, In f out -> ideal nv p (pfs A) (cf f);
  fs_leads : Permutation (map lmono out) (map lmono G);
  fs_red : forall f t, In f out -> In t f -> snd t = lmono f \/ forall g, In g G -> ~ mdvd (lmono g) (snd t);
  fs_inc : ForallOrdPairs (fun f g => lt (lmono f) (lmono g)) out }.

Theorem reduce_final_ok els K : els_ok nv lt p els -> (forall i, In i K -> (i < length els)%nat) -> NoDup K -> (forall i j, In i K -> In j K -> i <> j -> ~ mdvd (Lm els i) (Lm els j)) ->
  exists N, forall fuel, okn fuel N (reduce_final c fuel els K) (final_spec (map e_pol els) (kpolys els K)).
Proof.
  intros HE HK ND Hmin. set (tr := kpolys els K). assert (Trm : forall f, In f tr -> exists e i, In i K /\ nth_error els i = Some e /\ In e els /\ f = e_pol e).
  { intros f Hf. apply in_map_iff in Hf as (i & <- & Hi). pose proof (HK i Hi) as Li. destruct (nth_error els i) as [e|] eqn:E; [|apply nth_error_None in E; lia]. exists e, i. rewrite (nth_error_nth _ _ dd E). split; [exact Hi|]. split; [exact E|]. split; [eapply nth_error_In; eassumption|reflexivity]. }
  assert (Trp : forall f, In f tr -> mpoly nv lt p f) by (intros f Hf; destruct (Trm f Hf) as (e & i & _ & _ & He & ->); apply HE; exact He).
  assert (Lds : NoDup (map lmono tr)).
  { unfold tr, kpolys. rewrite map_map. assert (I0 : forall i j, In i K -> In j K -> Lm els i = Lm els j -> i = j) by (intros i j Hi Hj E; destruct (Nat.eq_dec i j) as [|N]; [assumption|]; exfalso; apply (Hmin i j Hi Hj N); rewrite E; apply mdvd_refl).
    clear - ND I0. induction K as [|i K IH]; cbn [map]; [constructor|]. inversion ND; subst. constructor; [|apply IH; auto; intros; apply I0; auto; right; assumption]. intros Hin. apply in_map_iff in Hin as (j & E & Hj). apply H1. rewrite <- (I0 j i); auto; [right; exact Hj|left; reflexivity]. }
  set (sht := sht_rows [] tr). set (skip := map lmono tr).
  assert (ShtIn : forall m, In m sht <-> exists rw (t : Z * mono), In rw tr /\ In t rw /\ snd t = m) by (intros m; unfold sht; rewrite sht_rows_in; cbn; intuition).
  assert (SkipIn : forall m, In m skip -> In m sht).
  { intros m Hm. apply in_map_iff in Hm as (f & <- & Hf). destruct (mpoly_lm_in nv lt p f (Trp f Hf)) as (t & Ht & E). apply ShtIn. exists f, t. auto. }
  assert (ShtLen : forall m, In m sht -> length m = nv).
  { intros m Hm. apply ShtIn in Hm as (f & t & Hf & Ht & <-). apply (mpoly_terms nv lt p f t (Trp f Hf) Ht). }
  assert (SI0 : SI nv els K skip (length sht) [] 0 sht [] []).
  { constructor.
    - apply sht_rows_nd. constructor.
    - exact ShtLen.
    - intros m Hm. apply SkipIn in Hm. apply In_nth_error in Hm as (j & Hj). exists j. split; [apply nth_error_Some; congruence|exact Hj].
    - constructor.
    - intros m [].
    - constructor.
    - intros r [].
    - exists []. split; [reflexivity|]. intros x [].
    - intros j m Hj. lia. }
  destruct (closure_join nv els K sht) as (C & C1 & C2 & C3); [intros m Hm'; apply (closure_exists nv lt p MO); auto|].
  exists (length C). intros fuel. unfold reduce_final. rewrite (kpolys_ok els K HK). cbn [rbind]. fold tr sht skip.
  pose proof (symb_ok nv lt p MO els K HE HK skip (length sht) [] C C2 fuel 0 sht [] [] SI0 C1) as SO. rewrite Nat.sub_0_r in SO.
  eapply okn_bind; [exact SO|]. intros [[sht' leads] rr] (B1 & B2 & B3 & B4 & _ & B6 & B7 & B8 & (rr1 & Err & B9) & B10). cbn [app] in Err. subst rr1. apply okl_okn.
  set (hcm := msort (c_o c) sht'). assert (HPm : Permutation hcm sht') by apply msort_perm.
  assert (HN : NoDup hcm) by (eapply Permutation_NoDup; [symmetry; exact HPm|exact B1]). assert (Hin : forall m, In m hcm <-> In m sht') by (intros m; split; apply Permutation_in; [exact HPm|symmetry; exact HPm]).
  assert (HL : forall m, In m hcm -> length m = nv) by (intros m Hm; apply B2, Hin; exact Hm). assert (HD : decreasing o hcm) by (apply (msort_dec o (ck_o c CK)); assumption).
  unfold when. destruct (cols_fit (c_k c) (c_p c) (length hcm)) eqn:Ef; cbn [rbind okl]; [|exact I]. apply cols_fit_ok in Ef.
  assert (Rrp : forall r, In r rr -> mpoly nv lt p r) by (intros r Hr; eapply mrow_mpoly; [exact MO|exact HE|apply (B8 r Hr)]).
  assert (Rrin : forall r, In r rr -> forall t, In t r -> In (snd t) hcm) by (intros r Hr t Ht; apply Hin; apply (B8 r Hr); exact Ht).
  assert (Trin : forall r, In r tr -> forall t, In t r -> In (snd t) hcm) by (intros r Hr t Ht; apply Hin, B3, ShtIn; exists r, t; auto).
  set (rows := map (to_row hcm) rr). set (trs := rows_inc (map (to_row hcm) tr)).
  assert (TrsIn : forall r, In r trs <-> exists f, In f tr /\ r = to_row hcm f).
  { intros r. unfold trs, rows_inc. split.
    - intros H. apply (Permutation_in _ (sort_perm _ _)) in H. apply in_map_iff in H as (f & <- & Hf). exists f. auto.
    - intros (f & Hf & ->). apply (Permutation_in _ (Permutation_sym (sort_perm _ _))). apply in_map. exact Hf. }
  assert (LmIn : forall f, mpoly nv lt p f -> (forall t, In t f -> In (snd t) hcm) -> In (lmono f) hcm).
  { intros f Mf H. destruct (mpoly_lm_in nv lt p f Mf) as (t & Ht & <-). auto. }
  assert (Kn : forall j r, known rows j = Some r -> exists f, In f rr /\ r = to_row hcm f /\ j = pos (lmono f) hcm).
  { intros j r H. unfold known in H. apply find_some in H as [H1 H2]. apply Nat.eqb_eq in H2. apply in_map_iff in H1 as (f & <- & Hf). exists f. split; [exact Hf|]. split; [reflexivity|]. rewrite <- H2. apply (row_piv hcm f HN HL HD (Rrp f Hf) (Rrin f Hf)). }
  assert (Kn2 : forall f, In f rr -> known rows (pos (lmono f) hcm) <> None).
  { intros f Hf. unfold known. intros K0. pose proof (find_none _ _ K0 (to_row hcm f) (in_map _ _ _ Hf)) as K1. cbv beta in K1. destruct (row_piv hcm f HN HL HD (Rrp f Hf) (Rrin f Hf)) as [_ E]. rewrite E, Nat.eqb_refl in K1. discriminate. }
  assert (KP : pivots_ok p (length hcm) (known rows)).
  { intros j r H. destruct (Kn j r H) as (f & Hf & -> & ->). apply (row_piv hcm f HN HL HD (Rrp f Hf) (Rrin f Hf)). }
  assert (TrP : forall r, In r trs -> pivot_row p (length hcm) (hcol r) r /\ known rows (hcol r) = None).
  { intros r Hr. apply TrsIn in Hr as (f & Hf & ->). destruct (row_piv hcm f HN HL HD (Trp f Hf) (Trin f Hf)) as [PR E]. rewrite E. split; [exact PR|]. destruct (known rows (pos (lmono f) hcm)) as [r|] eqn:Ek; [|reflexivity]. exfalso. destruct (Kn _ _ Ek) as (g & Hg & _ & Eg). apply pos_inj in Eg; [|apply LmIn; eauto|apply LmIn; eauto]. apply (B9 g Hg). rewrite <- Eg. apply in_map. exact Hf. }
  assert (HdN : NoDup (map hcol trs)).
  { eapply Permutation_NoDup; [apply Permutation_map; symmetry; apply sort_perm|]. rewrite map_map. assert (E : map (fun x => hcol (to_row hcm x)) tr = map (fun m => pos m hcm) (map lmono tr)) by (rewrite map_map; apply map_ext_in; intros f Hf; apply (row_piv hcm f HN HL HD (Trp f Hf) (Trin f Hf))). rewrite E.
    assert (I0 : forall m, In m (map lmono tr) -> In m hcm) by (intros m Hm; apply in_map_iff in Hm as (f & <- & Hf); apply LmIn; eauto). clear - Lds I0. induction Lds as [|x l H1 H2 IH]; cbn [map]; constructor; [|apply IH; intros m Hm; apply I0; right; exact Hm]. intros Hc. apply in_map_iff in Hc as (y & E & Hy). apply pos_inj in E; [subst; contradiction|apply I0; right; exact Hy|apply I0; left; reflexivity]. }
  assert (TrS : ForallOrdPairs (fun a b => (hcol b < hcol a)%nat) trs).
  { assert (S1 : ForallOrdPairs (fun a b => (hcol b <=? hcol a)%nat = true) trs).
    { apply (sort_sorted _ (fun _ => True)); auto; [intros a b _ _ H; apply Nat.leb_gt in H; apply Nat.leb_le; lia|intros a b d _ _ _ H1 H2; apply Nat.leb_le in H1, H2; apply Nat.leb_le; lia]. }
    clear - S1 HdN. induction S1 as [|a l H1 H2 IH]; constructor; [|apply IH; inversion HdN; assumption]. rewrite Forall_forall in *. intros b Hb. specialize (H1 b Hb). apply Nat.leb_le in H1. assert (hcol b <> hcol a); [|lia]. intros E. inversion HdN; subst. apply H3. rewrite <- E. apply in_map. exact Hb. }
  destruct (final_rows_ok (c_k c) p (length hcm) (ck_p c CK) (ck_k c CK) Ef trs (known rows) KP TrP TrS) as (l & El & Fl). unfold p in El. rewrite El. cbn [rbind]. clear El.
  set (nr := fun (r : list (nat * Z)) (f : list (Z * mono)) => Forall2 (fun t s => snd t = fst s /\ nth_error hcm (fst t) = Some (snd s)) r f).
  assert (Cv : exists news, rmap (of_row hcm) l = Ok news /\ Forall2 nr l news).
  { assert (Cr : forall r, In r l -> exists f, of_row hcm r = Ok f /\ nr r f) by (intros r Hr; destruct (F2_in_r _ _ _ _ Fl Hr) as (r0 & _ & _ & PR & _); apply (of_row_ok o); apply PR).
    clear - Cr. induction l as [|r l' IH]; [exists []; split; [reflexivity|constructor]|]. destruct (Cr r (or_introl eq_refl)) as (f & E & F). destruct IH as (fs & E' & F'); [intros x Hx; apply Cr; right; exact Hx|]. cbn [rmap]. rewrite E. cbn [rbind]. rewrite E'. cbn [rbind]. exists (f :: fs). split; [reflexivity|constructor; assumption]. }
  destruct Cv as (out & -> & Fo). cbn [okl].
  (* each output polynomial with the row it comes from *)
  assert (FF : Forall2 (fun r f => exists r', out_row p (length hcm) (known rows) trs r r' /\ nr r' f /\ In r trs) trs out).
  { assert (Fl' : Forall2 (fun r r' => out_row p (length hcm) (known rows) trs r r' /\ In r trs) trs l) by (eapply F2_imp; [|exact Fl]; intros r r' Hr H; split; assumption).
    eapply F2_imp; [|eapply F2_comp; [exact Fl'|exact Fo]]. intros r f _ (r' & [H1 H2] & H3). exists r'. auto. }
  assert (Out : forall r f, In r trs -> (exists r', out_row p (length hcm) (known rows) trs r r' /\ nr r' f /\ In r trs) ->
     mpoly nv lt p f /\ nth_error hcm (hcol r) = Some (lmono f) /\ ideal nv p (pfs (map e_pol els)) (cf f) /\ forall t, In t f -> snd t = lmono f \/ forall g, In g tr -> ~ mdvd (lmono g) (snd t)).
  { intros r f Hr (r' & (O1 & O2 & O3 & O4 & O5) & F & _). destruct (row_poly hcm r' f (hcol r) HN HL HD O1 O2 F) as (M1 & M2 & M3). split; [exact M1|]. split; [exact M2|]. split.
    - assert (L0 : lspan nv p (pfs (rr ++ tr)) (cf f)).
      { eapply lspan_ext; [eapply (phi_span o p hcm); [|exact O5]|intros m _; symmetry; apply (phi_of_row o); [exact HN|exact F]]. intros u [(j & x & Hj & ->)|(x & Hx & ->)].
        - destruct (Kn j x Hj) as (g & Hg & -> & _). eapply lspan_ext; [apply ls_in; exists g; split; [apply in_or_app; left; exact Hg|reflexivity]|]. intros m _. apply (phi_to_row o); [exact HN|apply Rrin; exact Hg].
        - apply TrsIn in Hx as (g & Hg & ->). eapply lspan_ext; [apply ls_in; exists g; split; [apply in_or_app; right; exact Hg|reflexivity]|]. intros m _. apply (phi_to_row o); [exact HN|apply Trin; exact Hg]. }
      eapply lspan_mono; [|exact L0]. intros h (g & Hg & ->). apply in_app_or in Hg as [Hg|Hg]; [|apply ideal_gen; exists g; split; [|reflexivity]; destruct (Trm g Hg) as (e & i & _ & _ & He & ->); apply in_map; exact He].
      destruct (B8 g Hg) as [(e & u & He & Lu & ->) _]. eapply lspan_ext; [apply ideal_mul; [exact Lu|apply ideal_gen; exists (e_pol e); split; [apply in_map; exact He|reflexivity]]|]. intros m Hm. apply (row_cf c els e u HE He Lu m Hm).
    - intros t Ht. destruct (M3 t Ht) as (j & Ej & Hj & Nz). destruct Hj as [->|Hj]; [left; congruence|]. right. intros g Hg Hd. pose proof (nth_error_In _ _ Ej) as Ht'. apply Hin in Ht'.
      assert (Ps : pos (snd t) hcm = j) by (apply nth_pos; assumption).
      destruct (B10 _ Ht') as [Q|[Q|Q]].
      + apply (Permutation_in _ (Permutation_sym B7)) in Q. apply in_map_iff in Q as (g0 & E0 & Hg0). apply Nz. apply O3. rewrite <- Ps, <- E0. apply Kn2. exact Hg0.
      + apply in_map_iff in Q as (g0 & E0 & Hg0). apply Nz. destruct (row_piv hcm g0 HN HL HD (Trp g0 Hg0) (Trin g0 Hg0)) as [_ E1]. rewrite <- Ps, <- E0, <- E1. apply O4; [apply TrsIn; exists g0; auto|]. rewrite E1, E0, Ps. exact Hj.
      + apply Q. destruct (Trm g Hg) as (e & i & Hi & Ee & _ & ->). exists i, e. auto. }
  assert (OutIn : forall f, In f out -> exists r, In r trs /\ (exists r', out_row p (length hcm) (known rows) trs r r' /\ nr r' f /\ In r trs)).
  { intros f Hf. destruct (F2_in_r _ _ _ _ FF Hf) as (r & Hr & H). exists r. auto. }
  assert (Heads : Forall2 (fun r f => nth_error hcm (hcol r) = Some (lmono f)) trs out) by (eapply F2_imp; [|exact FF]; intros r f Hr H; apply (Out r f Hr H)).
  assert (Inc : ForallOrdPairs (fun f g => lt (lmono f) (lmono g)) out).
  { clear - Heads TrS HD HN HL. induction Heads as [|r f rs fs H HF IH]; constructor; [|apply IH; inversion TrS; assumption]. apply Forall_forall. intros g Hg. destruct (F2_in_r _ _ _ _ HF Hg) as (s & Hs & E). inversion TrS as [|? ? T1 T2]; subst. rewrite Forall_forall in T1. specialize (T1 s Hs). apply (FOP_nth _ _ HD (hcol s) (hcol r)); auto. }
  constructor; [| | | |exact Inc].
  - intros f Hf. destruct (OutIn f Hf) as (r & Hr & H). apply (Out r f Hr H).
  - intros f Hf. destruct (OutIn f Hf) as (r & Hr & H). apply (Out r f Hr H).
  - fold tr. apply NoDup_Permutation; [|exact Lds|].
    + clear - Inc MO. induction Inc as [|f l H1 H2 IH]; cbn [map]; constructor; [|exact IH]. intros Hc. apply in_map_iff in Hc as (g & E & Hg). rewrite Forall_forall in H1. specialize (H1 g Hg). rewrite E in H1. apply (lt_irr nv lt MO _ H1).
    + assert (Hd : forall f, In f tr -> nth_error hcm (hcol (to_row hcm f)) = Some (lmono f)) by (intros f Hf; destruct (row_piv hcm f HN HL HD (Trp f Hf) (Trin f Hf)) as [_ E1]; rewrite E1; apply pos_nth; apply LmIn; eauto).
      intros m. split; intros Hm; apply in_map_iff in Hm as (f & <- & Hf).
      * destruct (F2_in_r _ _ _ _ Heads Hf) as (r & Hr & E). apply TrsIn in Hr as (g & Hg & ->). rewrite (Hd g Hg) in E. injection E as <-. apply in_map. exact Hg.
      * destruct (F2_in_l _ _ _ _ Heads (proj2 (TrsIn (to_row hcm f)) (ex_intro _ f (conj Hf eq_refl)))) as (g & Hg & E). rewrite (Hd f Hf) in E. injection E as ->. apply in_map. exact Hg.
  - intros f t Hf Ht. destruct (OutIn f Hf) as (r & Hr & H). destruct (Out r f Hr H) as (_ & _ & _ & R). apply R. exact Ht.
Qed.
End Final.
