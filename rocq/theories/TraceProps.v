(** C43, C50: learning and applying a trace. *)
From Coq Require Import ZArith NArith Arith List Bool Lia Permutation Sorted Znumtheory.
From Verif Require Import LinSpec MonoSpec MonoModel MonoSpecProofs MonoCmpProofs GbSpec GbProofs GbIdeal LaModel LaSpec LaProofs LaProps F4Model UpdProofs UpdProps F4Rows SymbProofs SelProofs MatProofs RoundProofs FinalProofs F4Props TraceModel TraceLaProofs TraceProofs TraceRun TraceApply.
Import ListNotations.
Open Scope Z_scope.

(** * C43 *)
(** Bit i of an array of 32-bit words. rows: for every row to be reduced the way it ended and the bits of the reducers it
    used; a row that ended as a new pivot (DonePiv) is kept. *)
Definition word_bit (w : list N) (i : nat) : bool := N.testbit (nth (i / 32) w 0%N) (N.of_nat (i mod 32)).
Definition gave_new (x : rstate * list N) : Prop := exists c, fst x = DonePiv c.
(** The kept reducers are those used by a row that gave a new element, in their old order; the new bit q of a kept row is its old
    bit for the q-th kept reducer. *)
Theorem C43_kept : forall rr tr rows nlms, length tr = length rows -> (forall x, In x rows -> length (snd x) = nwords (length rr)) ->
  exists d idx kept, construct_trace rr tr rows nlms = Some d /\ td_nlms d = nlms /\
  StronglySorted Nat.lt idx /\ (forall i, In i idx <-> (i < length rr)%nat /\ exists x, In x rows /\ gave_new x /\ word_bit (snd x) i = true) /\
  Forall2 (fun i t => nth_error rr i = Some t) idx (td_rri d) /\
  StronglySorted Nat.lt kept /\ (forall j, In j kept <-> exists x, nth_error rows j = Some x /\ gave_new x) /\
  Forall2 (fun j t => nth_error tr j = Some t) kept (td_tri d) /\
  Forall2 (fun j w => exists x, nth_error rows j = Some x /\ length w = nwords (length idx) /\
    forall q, word_bit w q = match nth_error idx q with Some i => word_bit (snd x) i | None => false end) kept (td_rba d).
Proof.
  intros rr tr rows nlms HL HW. destruct (construct_trace_ok rr tr rows nlms HL HW) as (d & E & D1 & D2 & D3 & D4). set (kp := kept_rows tr rows) in *. set (idx := used_idx kp (length rr)) in *.
  set (kept := filter (fun j => match nth_error rows j with Some x => is_piv (fst x) | None => false end) (seq 0 (length rows))).
  assert (SS : forall (h : nat -> bool) a n, StronglySorted Nat.lt (filter h (seq a n))).
  { intros h a n. revert a. induction n as [|n IH]; intros a; cbn [seq filter]; [constructor|]. destruct (h a); [|apply IH]. constructor; [apply IH|]. apply Forall_forall. intros x Hx. apply filter_In in Hx as [Hx _]. apply in_seq in Hx. unfold Nat.lt. lia. }
  assert (Piv : forall x : rstate * list N, is_piv (fst x) = true <-> gave_new x) by (intros x; unfold gave_new; destruct (fst x); cbn [is_piv]; split; try discriminate; try (intros (cc & K); discriminate); eauto).
  assert (InK : forall t x, In (t, x) kp -> In x rows /\ gave_new x) by (intros t x Hx; apply filter_In in Hx as [Hx K]; split; [apply in_combine_r in Hx; exact Hx|apply Piv; exact K]).
  assert (KI : Forall2 (fun j x => nth_error tr j = Some (fst x) /\ nth_error rows j = Some (snd x)) kept kp).
  { unfold kept, kp, kept_rows. clear - HL. enough (G : forall n tr0 rows0, length tr0 = length rows0 -> (forall i, nth_error tr0 i = nth_error tr (n + i)) -> (forall i, nth_error rows0 i = nth_error rows (n + i)) ->
      Forall2 (fun j x => nth_error tr j = Some (fst x) /\ nth_error rows j = Some (snd x)) (filter (fun j => match nth_error rows j with Some x => is_piv (fst x) | None => false end) (seq n (length rows0))) (filter (fun x => is_piv (fst (snd x))) (combine tr0 rows0))) by (apply (G 0%nat); auto).
    intros n tr0. revert n. induction tr0 as [|t tr0 IH]; intros n [|x rows0] HL0 H1 H2; try discriminate; [constructor|]. cbn [length seq filter combine]. pose proof (H2 O) as K2. pose proof (H1 O) as K1. rewrite Nat.add_0_r in K1, K2. cbn [nth_error] in K1, K2. rewrite <- K2. cbn [fst snd].
    assert (R : Forall2 (fun j x => nth_error tr j = Some (fst x) /\ nth_error rows j = Some (snd x)) (filter (fun j => match nth_error rows j with Some x => is_piv (fst x) | None => false end) (seq (S n) (length rows0))) (filter (fun x => is_piv (fst (snd x))) (combine tr0 rows0))).
    { apply IH; [cbn in HL0; lia|intros i; specialize (H1 (S i)); cbn [nth_error] in H1; rewrite H1; f_equal; lia|intros i; specialize (H2 (S i)); cbn [nth_error] in H2; rewrite H2; f_equal; lia]. }
    destruct (is_piv (fst x)); [|exact R]. constructor; [cbn [fst snd]; auto|exact R]. }
  exists d, idx, kept. split; [exact E|]. split; [exact D1|]. split; [apply SS|]. split; [|split; [|split; [apply SS|split; [|split]]]].
  - intros i. unfold idx, used_idx. rewrite filter_In, in_seq, existsb_exists. split.
    + intros [Hi ([t x] & Hx & Hb)]. split; [lia|]. destruct (InK t x Hx) as [K1 K2]. exists x. auto.
    + intros [Hi (x & Hx & Hg & Hb)]. split; [lia|]. apply In_nth_error in Hx as (j & Hj). assert (Hk : In j kept) by (apply filter_In; split; [apply in_seq; assert (j < length rows)%nat by (apply nth_error_Some; congruence); lia|]; rewrite Hj; apply Piv; exact Hg).
      destruct (F2_in_l _ _ _ _ KI Hk) as (y & Hy & _ & Ey). exists y. split; [exact Hy|]. assert (snd y = x) by congruence. subst x. exact Hb.
  - rewrite D3. clear - idx. assert (H : forall i, In i idx -> (i < length rr)%nat) by (intros i Hi; apply filter_In in Hi as [Hi _]; apply in_seq in Hi; lia). induction idx as [|i l IH]; cbn [map]; constructor; [|apply IH; intros j Hj; apply H; right; exact Hj]. apply nth_error_nth'. apply H. left. reflexivity.
  - intros j. unfold kept. rewrite filter_In, in_seq. split.
    + intros [_ K]. destruct (nth_error rows j) as [x|]; [|discriminate]. exists x. split; [reflexivity|apply Piv; exact K].
    + intros (x & Hx & Hg). assert (j < length rows)%nat by (apply nth_error_Some; congruence). split; [lia|]. rewrite Hx. apply Piv. exact Hg.
  - rewrite D2. clear - KI. induction KI as [|j x l l' [H _] F IH]; cbn [map]; constructor; auto.
  - clear - KI D4. generalize dependent (td_rba d). intros rba D4. pose proof (F2_comp _ _ _ _ _ KI D4) as F. clear - F. induction F as [|j w l l' H F IH]; constructor; auto. destruct H as (x & [_ H1] & H2 & H3). exists (snd x). auto.
Qed.
Print Assumptions C43_kept.

(** The learning run computes what the ordinary run computes. *)
Theorem C43_learn_same : forall c fuel F, cfg_ok c -> Forall (sorted_poly (o_nv (c_o c)) (o_lt (c_o c)) (c_p c)) F ->
  match learn_f4 c fuel F with
  | Ok (out, _) => core_f4 c true fuel F = Ok out
  | Limit => core_f4 c true fuel F = Limit
  | More => core_f4 c true fuel F = More
  | Undef => False
  end.
Proof.
  intros c fuel F CK HF. destruct (learn_f4_ok c CK F fuel HF) as [E _]. destruct (core_f4_ok c CK F true HF) as (N & K). specialize (K fuel). rewrite <- E in *. destruct (learn_f4 c fuel F) as [[out T]| | |]; try reflexivity. exact K.
Qed.
Print Assumptions C43_learn_same.

(** What was kept is enough: applied to the system it was learned from (with any thread schedule) the trace is accepted and
    gives the learned basis. *)
Theorem C43_replay : forall c1 c2 fuel F out T, cfg_ok c1 -> cfg_ok c2 -> c_o c1 = c_o c2 -> c_k c1 = c_k c2 -> c_p c1 = c_p c2 ->
  Forall (sorted_poly (o_nv (c_o c1)) (o_lt (c_o c1)) (c_p c1)) F -> learn_f4 c1 fuel F = Ok (out, T) -> apply_f4 c2 fuel T F = Ok (Some out).
Proof.
  intros c1 c2 fuel F out T C1 C2 Eo Ek Ep HF HL. destruct (learn_f4_ok c1 C1 F fuel HF) as [_ K]. destruct (K out T HL) as (F' & b & ps & E1 & MF & HI & Hd & El & TR & ER). rewrite Eo, Ek, Ep in *.
  unfold apply_f4. rewrite E1. cbn [rbind]. rewrite (replay_loop c2 C2 _ _ _ TR). cbn [rbind]. rewrite El. assert (Q : reduce_final c2 fuel (b_el b) (final_lmps b) = reduce_final c1 fuel (b_el b) (final_lmps b)) by (unfold reduce_final; rewrite Eo, Ek, Ep; reflexivity). rewrite Q, ER. reflexivity.
Qed.
Print Assumptions C43_replay.

(** * C50 *)
Lemma normalize_lm k p f f' : normalize_poly k p f = Ok f' -> f' <> [] -> lmono f' = lmono f.
Proof.
  unfold normalize_poly. destruct (normalize_initial k p _) as [r|]; [|discriminate]. cbn [of_opt rbind]. intros E. injection E as <-. destruct r as [|a r]; [intros H; destruct H; reflexivity|]. destruct f as [|t f]; [intros H; destruct H; reflexivity|]. reflexivity.
Qed.
Lemma normalize_lms c F F' : Forall (mpoly (o_nv (c_o c)) (o_lt (c_o c)) (c_p c)) F' -> rmap (normalize_poly (c_k c) (c_p c)) F = Ok F' -> map lmono F' = map lmono F.
Proof.
  intros M E. apply rmap_F2 in E. induction E as [|f f' F F' H E IH]; [reflexivity|]. inversion M; subst. cbn [map]. f_equal; [|auto]. eapply normalize_lm; [exact H|]. eapply mpoly_ne; eassumption.
Qed.
Lemma Lm_map els i : Lm els i = nth i (map e_lm els) [].
Proof. unfold Lm. rewrite <- (map_nth e_lm). reflexivity. Qed.
Lemma kpolys_lm els K : map lmono (kpolys els K) = map (Lm els) K.
Proof. unfold kpolys. rewrite map_map. apply map_ext. reflexivity. Qed.
Lemma leads_sorted nv lt p l l' : mono_order nv lt -> (forall f, In f l -> mpoly nv lt p f) -> ForallOrdPairs (fun f g : list (Z * mono) => lt (lmono f) (lmono g)) l -> ForallOrdPairs (fun f g : list (Z * mono) => lt (lmono f) (lmono g)) l' ->
  Permutation (map lmono l) (map lmono l') -> map lmono l = map lmono l'.
Proof.
  intros MO M H1 H2 P. assert (Fm : forall a : list (list (Z * mono)), ForallOrdPairs (fun f g => lt (lmono f) (lmono g)) a -> ForallOrdPairs lt (map lmono a)).
  { intros a H. induction H as [|f a Hf H IH]; cbn [map]; constructor; auto. rewrite Forall_forall in *. intros m Hm. apply in_map_iff in Hm as (g & <- & Hg). apply Hf. exact Hg. }
  apply (sorted_unique lt (fun m => length m = nv)); auto.
  - intros a _ K. apply (lt_irr nv lt MO _ K).
  - intros a b d La Lb Ld K1 K2. apply (lt_tr nv lt MO _ b); assumption.
  - intros a Ha. apply in_map_iff in Ha as (f & <- & Hf). apply (mpoly_lm nv lt p f (M f Hf)).
  - intros a. split; apply Permutation_in; [exact P|symmetry; exact P].
Qed.
Lemma final_reduced c A els K out : cfg_ok c -> final_spec c A (kpolys els K) out -> NoDup K -> (forall i j, In i K -> In j K -> i <> j -> ~ mdvd (Lm els i) (Lm els j)) -> reduced_basis (o_nv (c_o c)) (o_lt (c_o c)) (c_p c) out.
Proof.
  intros CK [S1 S2 S3 S4 S5] L2 L4. set (nv := o_nv (c_o c)) in *. set (lt := o_lt (c_o c)) in *. set (p := c_p c) in *. pose proof (o_lt_order (c_o c)) as MO. fold nv lt in MO. pose proof (cfg_p c CK) as Hp. fold p in Hp. set (G := kpolys els K) in *.
  assert (Lead : forall f l, In f out -> is_lead nv lt p (cf f) l -> l = lmono f) by (intros f l Hf Hl; apply (lead_unique nv lt p MO (cf f)); [exact Hl|apply mpoly_lead; auto]).
  assert (InG : forall f, In f out -> exists g, In g G /\ lmono g = lmono f) by (intros f Hf; apply (in_map lmono) in Hf; apply (Permutation_in _ S3) in Hf; apply in_map_iff in Hf as (g & E & Hg); exists g; auto).
  assert (MinG : forall f g, In f G -> In g G -> lmono f <> lmono g -> ~ mdvd (lmono f) (lmono g)).
  { intros f g Hf Hg N. apply in_map_iff in Hf as (i & <- & Hi). apply in_map_iff in Hg as (j & <- & Hj). apply (L4 i j Hi Hj). intros ->. apply N. reflexivity. }
  assert (NdL : forall i j f g, nth_error out i = Some f -> nth_error out j = Some g -> i <> j -> lmono f <> lmono g).
  { intros i j f g Hi Hj N E. destruct (Nat.lt_trichotomy i j) as [L|[L|L]]; [|contradiction|].
    - pose proof (FOP_nth _ _ S5 i j f g L Hi Hj) as T. cbv beta in T. rewrite E in T. apply (lt_irr nv lt MO _ T).
    - pose proof (FOP_nth _ _ S5 j i g f L Hj Hi) as T. cbv beta in T. rewrite E in T. apply (lt_irr nv lt MO _ T). }
  split.
  - intros f Hf. exists (lmono f). split; [apply mpoly_lead; auto|]. pose proof (good_lc nv lt MO f (mpoly_good nv lt p f (S1 f Hf))) as E. change (lm f) with (lmono f) in E. rewrite E. reflexivity.
  - intros i j f g l m Hi Hj N Hl _ Nz Hdv. assert (Hf : In f out) by (eapply nth_error_In; eassumption). assert (Hg : In g out) by (eapply nth_error_In; eassumption). rewrite (Lead f l Hf Hl) in Hdv.
    destruct (cf_nz g m) as (t & Ht & <-); [intros K0; apply Nz; rewrite K0; reflexivity|]. destruct (InG f Hf) as (f0 & Hf0 & E0). rewrite <- E0 in Hdv. destruct (S4 g t Hg Ht) as [E|E]; [|apply (E f0 Hf0); exact Hdv].
    destruct (InG g Hg) as (g0 & Hg0 & E1). rewrite E, <- E1 in Hdv. apply (MinG f0 g0 Hf0 Hg0); [|exact Hdv]. rewrite E0, E1. apply (NdL i j f g Hi Hj N).
Qed.

(** everything about one application *)
Lemma apply_f4_ok c1 c2 fuel1 F1 F2 out1 T : cfg_ok c1 -> cfg_ok c2 -> c_o c1 = c_o c2 ->
  Forall (sorted_poly (o_nv (c_o c1)) (o_lt (c_o c1)) (c_p c1)) F1 -> Forall (sorted_poly (o_nv (c_o c2)) (o_lt (c_o c2)) (c_p c2)) F2 -> map lmono F1 = map lmono F2 ->
  learn_f4 c1 fuel1 F1 = Ok (out1, T) ->
  exists N, forall fuel, okn fuel N (apply_f4 c2 fuel T F2) (fun x => match x with None => True | Some out2 =>
    (forall f, In f out2 -> mpoly (o_nv (c_o c2)) (o_lt (c_o c2)) (c_p c2) f) /\ (forall f, In f out2 -> ideal (o_nv (c_o c2)) (c_p c2) (pfs F2) (cf f)) /\ map lmono out2 = map lmono out1 /\
    reduced_basis (o_nv (c_o c2)) (o_lt (c_o c2)) (c_p c2) out2 /\ ForallOrdPairs (fun f g => o_lt (c_o c2) (lmono f) (lmono g)) out2 end).
Proof.
  intros C1 C2 Eo H1 H2 EL HL. destruct (learn_f4_ok c1 C1 F1 fuel1 H1) as [_ K]. destruct (K out1 T HL) as (F1' & b & ps & E1 & M1 & HI & Hd & Et & TR & ER). clear K.
  destruct (normalize_all c2 C2 F2 H2) as (F2' & E2 & M2 & S2). pose proof (normalize_lms c1 F1 F1' M1 E1) as N1. pose proof (normalize_lms c2 F2 F2' M2 E2) as N2.
  destruct (final_lmps_spec _ b ps _ (fi_u _ _ _ _ HI) (fi_lo _ _ _ _ HI)) as (L1 & L2 & L3 & L4). set (K := final_lmps b) in *.
  destruct (reduce_final_ok c1 C1 (b_el b) K (fi_els _ _ _ _ HI) L1 L2 L4) as (N0 & FS). specialize (FS fuel1). rewrite ER in FS. cbn [okn] in FS.
  rewrite Eo in *. set (nv := o_nv (c_o c2)) in *. set (lt := o_lt (c_o c2)) in *. pose proof (o_lt_order (c_o c2)) as MO. fold nv lt in MO.
  assert (HE2 : els_ok nv lt (c_p c2) (map (mk_elt (o_nev (c_o c2))) F2')) by (intros e He; apply in_map_iff in He as (f & <- & Hf); rewrite Forall_forall in M2; apply M2; exact Hf).
  assert (ELm : map e_lm (map (mk_elt (o_nev (c_o c2))) F2') = map e_lm (map (mk_elt (o_nev (c_o c2))) F1')) by (rewrite !mk_lm; congruence).
  pose proof (apply_loop_ok c2 C2 _ _ _ _ _ TR _ 0 HE2 ELm) as AL. unfold apply_f4. rewrite E2. cbn [rbind].
  destruct (apply_loop c2 0 (map (mk_elt (o_nev (c_o c2))) F2') (t_rds T)) as [[els|]| | |]; cbn [okl rbind] in *; try contradiction; [|exists O; intros; exact I|exists O; intros; exact I].
  destruct AL as (A1 & A2 & A3). fold nv in A3. rewrite mk_pol in A3.
  assert (ELM : forall i, Lm els i = Lm (b_el b) i) by (intros i; rewrite !Lm_map, A2; reflexivity).
  assert (LEN : length els = length (b_el b)) by (rewrite <- (map_length e_lm els), A2; apply map_length).
  rewrite Et. destruct (reduce_final_ok c2 C2 els K A1) as (N & FS2); [intros i Hi; rewrite LEN; apply L1; exact Hi|exact L2|intros i j Hi Hj Hn; rewrite !ELM; apply L4; assumption|].
  exists N. intros fuel. specialize (FS2 fuel). destruct (reduce_final c2 fuel els K) as [out2| | |]; cbn [okn rbind] in *; auto. pose proof FS2 as [B1 B2 B3 B4 B5]. fold nv lt in B1, B2, B5.
  split; [exact B1|]. split; [|split; [|split]].
  - intros f Hf. specialize (B2 f Hf). apply (S2 (cf f)). revert B2. apply ideal_incl. intros h (g & Hg & ->). apply in_map_iff in Hg as (e & <- & He). apply A3. exact He.
  - destruct FS as [D1 D2 D3 D4 D5]. rewrite Eo in D5. fold lt in D5. apply (leads_sorted nv lt (c_p c2)); auto. rewrite B3, D3, !kpolys_lm. rewrite (map_ext _ _ ELM). reflexivity.
  - apply (final_reduced c2 _ els K out2 C2 FS2 L2). intros i j Hi Hj Hn. rewrite !ELM. apply L4; assumption.
  - exact B5.
Qed.

(** The generators of the two systems have the same leading monomials (the prime divides no leading coefficient). Then the
    application never does anything undefined and ends; an accepted result consists of monic polynomials of the ideal of the new
    system, fully reduced against each other, in increasing order, with exactly the leading monomials of the learned basis. *)
Theorem C50_sound : forall c1 c2 fuel1 fuel F1 F2 out1 T out2, cfg_ok c1 -> cfg_ok c2 -> c_o c1 = c_o c2 ->
  Forall (sorted_poly (o_nv (c_o c1)) (o_lt (c_o c1)) (c_p c1)) F1 -> Forall (sorted_poly (o_nv (c_o c2)) (o_lt (c_o c2)) (c_p c2)) F2 -> map lmono F1 = map lmono F2 ->
  learn_f4 c1 fuel1 F1 = Ok (out1, T) -> apply_f4 c2 fuel T F2 = Ok (Some out2) ->
  map lmono out2 = map lmono out1 /\
  (forall f, In f out2 -> sorted_poly (o_nv (c_o c2)) (o_lt (c_o c2)) (c_p c2) f /\ (exists m f', f = (1, m) :: f') /\ ideal (o_nv (c_o c2)) (c_p c2) (pfs F2) (cf f)) /\
  reduced_basis (o_nv (c_o c2)) (o_lt (c_o c2)) (c_p c2) out2 /\ ForallOrdPairs (fun f g => o_lt (c_o c2) (lmono f) (lmono g)) out2.
Proof.
  intros c1 c2 fuel1 fuel F1 F2 out1 T out2 C1 C2 Eo H1 H2 EL HL HA. destruct (apply_f4_ok c1 c2 fuel1 F1 F2 out1 T C1 C2 Eo H1 H2 EL HL) as (N & K). specialize (K fuel). rewrite HA in K. cbn [okn] in K. destruct K as (K1 & K2 & K3 & K4 & K5).
  split; [exact K3|]. split; [|auto]. intros f Hf. destruct (K1 f Hf) as (S1 & m & f' & E). eauto 6.
Qed.
Print Assumptions C50_sound.
Theorem C50_terminates : forall c1 c2 fuel1 F1 F2 out1 T, cfg_ok c1 -> cfg_ok c2 -> c_o c1 = c_o c2 ->
  Forall (sorted_poly (o_nv (c_o c1)) (o_lt (c_o c1)) (c_p c1)) F1 -> Forall (sorted_poly (o_nv (c_o c2)) (o_lt (c_o c2)) (c_p c2)) F2 -> map lmono F1 = map lmono F2 ->
  learn_f4 c1 fuel1 F1 = Ok (out1, T) ->
  exists N, forall fuel, (N <= fuel)%nat -> apply_f4 c2 fuel T F2 = Limit \/ exists x, apply_f4 c2 fuel T F2 = Ok x.
Proof.
  intros c1 c2 fuel1 F1 F2 out1 T C1 C2 Eo H1 H2 EL HL. destruct (apply_f4_ok c1 c2 fuel1 F1 F2 out1 T C1 C2 Eo H1 H2 EL HL) as (N & K). exists N. intros fuel Hf. specialize (K fuel). destruct (apply_f4 c2 fuel T F2); cbn [okn] in K; eauto; [lia|contradiction].
Qed.
Print Assumptions C50_terminates.
(** In every round the accepted application found as many elements as the learning run, with the same leading monomials. *)
Theorem C50_rounds : forall c fuel T F out, apply_f4 c fuel T F = Ok (Some out) ->
  exists F' Ns, rmap (normalize_poly (c_k c) (c_p c)) F = Ok F' /\ Forall2 (fun d N => map lmono N = td_nlms d) (t_rds T) Ns /\
  reduce_final c fuel (map (mk_elt (o_nev (c_o c))) (F' ++ concat Ns)) (t_lmps T) = Ok out.
Proof.
  intros c fuel T F out H. unfold apply_f4 in H. destruct (rmap (normalize_poly (c_k c) (c_p c)) F) as [F'| | |]; try discriminate. cbn [rbind] in H. exists F'.
  assert (G : forall ds els r els', apply_loop c r els ds = Ok (Some els') -> exists Ns, Forall2 (fun d N => map lmono N = td_nlms d) ds Ns /\ els' = els ++ map (mk_elt (o_nev (c_o c))) (concat Ns)).
  { induction ds as [|d ds IH]; intros els r els' E; cbn [apply_loop] in E; [injection E as <-; exists []; split; [constructor|symmetry; apply app_nil_r]|].
    destruct (apply_round c r els d) as [[news|]| | |] eqn:ER; try discriminate. cbn [rbind] in E. destruct (IH _ _ _ E) as (Ns & FF & ->). exists (news :: Ns). split; [constructor; [|exact FF]|cbn [concat]; rewrite map_app, app_assoc; reflexivity].
    unfold apply_round in ER. destruct (rmap (tag_row els) (td_rri d)) as [rr| | |]; try discriminate. cbn [rbind] in ER. destruct (rmap (tag_row els) (td_tri d)) as [tr| | |]; try discriminate. cbn [rbind] in ER. unfold when in ER. destruct (cols_fit _ _ _); [|discriminate]. cbn [rbind] in ER.
    destruct (echelon_apply _ _ _ _ _ _ _) as [[l|]|]; try discriminate. cbn [of_opt rbind] in ER. destruct (_ =? _)%nat; [|discriminate]. destruct (rmap _ (rev l)) as [nn| | |]; try discriminate. cbn [rbind] in ER. destruct (list_eqb (map lmono nn) (td_nlms d)) eqn:El; [|discriminate]. injection ER as ->. apply list_eqb_eq. exact El. }
  destruct (apply_loop c 0 _ (t_rds T)) as [[els|]| | |] eqn:EL; try discriminate. cbn [rbind] in H. destruct (G _ _ _ _ EL) as (Ns & F2 & ->). exists Ns. split; [reflexivity|]. split; [exact F2|]. rewrite map_app. destruct (reduce_final _ _ _ _) as [o2| | |]; try discriminate. cbn [rbind] in H. congruence.
Qed.
Print Assumptions C50_rounds.
(** An accepted result is the reduced Gröbner basis of the new system exactly when the leading monomials of the learned basis
    divide all leading monomials of the new ideal; it is then what an ordinary run returns. *)
Theorem C50_correct : forall c1 c2 fuel1 fuel F1 F2 out1 T out2, cfg_ok c1 -> cfg_ok c2 -> c_o c1 = c_o c2 ->
  Forall (sorted_poly (o_nv (c_o c1)) (o_lt (c_o c1)) (c_p c1)) F1 -> Forall (sorted_poly (o_nv (c_o c2)) (o_lt (c_o c2)) (c_p c2)) F2 -> map lmono F1 = map lmono F2 ->
  learn_f4 c1 fuel1 F1 = Ok (out1, T) -> apply_f4 c2 fuel T F2 = Ok (Some out2) ->
  ((same_ideal (o_nv (c_o c2)) (c_p c2) (pfs F2) (pfs out2) /\ groebner (o_nv (c_o c2)) (o_lt (c_o c2)) (c_p c2) (pfs out2)) <->
   (forall f m, ideal (o_nv (c_o c2)) (c_p c2) (pfs F2) f -> is_lead (o_nv (c_o c2)) (o_lt (c_o c2)) (c_p c2) f m -> exists g, In g out1 /\ mdvd (lmono g) m)) /\
  ((forall f m, ideal (o_nv (c_o c2)) (c_p c2) (pfs F2) f -> is_lead (o_nv (c_o c2)) (o_lt (c_o c2)) (c_p c2) f m -> exists g, In g out1 /\ mdvd (lmono g) m) ->
   forall fuel' out, core_f4 c2 true fuel' F2 = Ok out -> out = out2).
Proof.
  intros c1 c2 fuel1 fuel F1 F2 out1 T out2 C1 C2 Eo H1 H2 EL HL HA. destruct (apply_f4_ok c1 c2 fuel1 F1 F2 out1 T C1 C2 Eo H1 H2 EL HL) as (N & K). specialize (K fuel). rewrite HA in K. cbn [okn] in K. destruct K as (K1 & K2 & K3 & K4 & K5).
  set (nv := o_nv (c_o c2)) in *. set (lt := o_lt (c_o c2)) in *. set (p := c_p c2) in *. pose proof (o_lt_order (c_o c2)) as MO. fold nv lt in MO. pose proof (cfg_p c2 C2) as Hp. fold p in Hp.
  assert (GO : Forall (good nv lt) out2) by (apply Forall_forall; intros f Hf; apply (mpoly_good nv lt p); auto).
  assert (Back : (forall f m, ideal nv p (pfs F2) f -> is_lead nv lt p f m -> exists g, In g out1 /\ mdvd (lmono g) m) -> same_ideal nv p (pfs F2) (pfs out2) /\ groebner nv lt p (pfs out2)).
  { intros HA2. destruct (normalize_all c2 C2 F2 H2) as (F' & _ & MF & SF). fold nv lt p in MF, SF. destruct (gb_subset nv lt p MO (P1 p Hp) F' out2) as [A B]; auto.
    - apply Forall_forall. intros f Hf. apply (mpoly_good nv lt p). rewrite Forall_forall in MF. auto.
    - intros g Hg. apply SF. apply K2. exact Hg.
    - intros f m Hf Hm. apply SF in Hf. destruct (HA2 f m Hf Hm) as (g & Hg & Hd). apply (in_map lmono) in Hg. rewrite <- K3 in Hg. apply in_map_iff in Hg as (h & E & Hh). exists h. split; [exact Hh|]. change (lm h) with (lmono h). rewrite E. exact Hd.
    - split; [|exact B]. intros f. rewrite (SF f). apply A. }
  split; [split|].
  - intros [SI GB] f m Hf Hm. apply SI in Hf. destruct (GB f m Hf Hm) as (g & l & (g0 & Hg0 & ->) & Hl & Hd). rewrite (lead_unique nv lt p MO _ _ _ Hl (mpoly_lead nv lt p MO Hp g0 (K1 g0 Hg0))) in Hd. apply (in_map lmono) in Hg0. rewrite K3 in Hg0. apply in_map_iff in Hg0 as (h & E & Hh). exists h. split; [exact Hh|]. rewrite E. exact Hd.
  - exact Back.
  - intros HA2 fuel' out E. destruct (Back HA2) as [SI GB]. destruct (C23_sound c2 true fuel' F2 out C2 H2 E) as (A1 & A2 & _ & A4 & A5). fold nv lt p in A1, A2, A4, A5. destruct (A5 eq_refl) as [A6 A7].
    assert (SO : same_ideal nv p (pfs out) (pfs out2)) by (intros f; rewrite <- (A1 f); apply SI). assert (GA : Forall (good nv lt) out) by (apply Forall_forall; intros f Hf; apply (mpoly_good nv lt p); apply A4; exact Hf).
    assert (Half : forall o1 o2 : list (list (Z * mono)), (forall f, In f o1 -> sorted_poly nv lt p f) -> (forall f, In f o2 -> sorted_poly nv lt p f) -> (forall g, In g o1 -> exists h, In h o2 /\ lm g = lm h /\ peq nv p (cf g) (cf h)) -> forall f, In f o1 -> In f o2).
    { intros o1 o2 S1 S2 H f Hf. destruct (H f Hf) as (g & Hg & _ & Eq). rewrite (sorted_poly_eq nv lt p MO Hp f g); auto. }
    apply (sorted_unique (fun f g => lt (lmono f) (lmono g)) (fun f => length (lmono f) = nv)); auto.
    + intros a _ K. apply (lt_irr nv lt MO _ K).
    + intros a b d La Lb Ld Q1 Q2. apply (lt_tr nv lt MO _ (lmono b)); assumption.
    + intros a Ha. apply (mpoly_lm nv lt p). apply A4. exact Ha.
    + intros f. split; apply Half; try (intros g Hg; apply A4; exact Hg); try (intros g Hg; apply K1; exact Hg).
      * apply (reduced_unique nv lt p MO (P1 p Hp)); auto.
      * apply (reduced_unique nv lt p MO (P1 p Hp)); auto. intros g. symmetry. apply SO.
Qed.
Print Assumptions C50_correct.

(** * Cases meeting the hypotheses *)
(** 40 reducers, two rows that gave a pivot and one that reduced to zero; reducers 1, 33 and 39 were used by the kept rows, 5 only by the lost one *)
Definition kept_ex_rr : list tag := map (fun i => (i, [N.of_nat i])) (seq 0 40).
Definition kept_ex_rows : list (rstate * list N) := [(DonePiv 7%nat, [2; 2]%N); (DoneZero, [32; 0]%N); (DonePiv 9%nat, [0; 130]%N)].
Example C43_kept_ex : construct_trace kept_ex_rr [(50%nat, [0%N]); (51%nat, [1%N]); (52%nat, [2%N])] kept_ex_rows [] =
  Some {| td_rri := [(1%nat, [1%N]); (33%nat, [33%N]); (39%nat, [39%N])]; td_tri := [(50%nat, [0%N]); (52%nat, [2%N])]; td_rba := [[3%N]; [6%N]]; td_nlms := [] |}.
Proof. vm_compute. reflexivity. Qed.

Lemma prime_103 : prime 103.
Proof.
  apply prime_intro; [lia|]. intros n Hn. apply Zgcd_1_rel_prime.
  assert (Q : forallb (fun i => Z.gcd (Z.of_nat i) 103 =? 1) (seq 1 102) = true) by (vm_compute; reflexivity). rewrite forallb_forall in Q. specialize (Q (Z.to_nat n)). rewrite Z2Nat.id in Q by lia. apply Z.eqb_eq. apply Q. apply in_seq. lia.
Qed.
Definition cfg3 : config := std_config ord2 K8 103 1.
Lemma cfg3_ok : cfg_ok cfg3. Proof. apply std_config_ok; [unfold o_ok; cbn; lia|apply prime_103|unfold in_class; lia|lia]. Qed.
(** 2 x^2 + 2 y, 3 x y - 3 modulo 101 (learned) and 103 (applied) *)
Definition tr_ex : list (list (Z * mono)) := [[(2, [2; 0]%N); (2, [0; 1]%N)]; [(3, [1; 1]%N); (100, [0; 0]%N)]].
Definition tr_out : list (list (Z * mono)) := [[(1, [0; 2]%N); (1, [1; 0]%N)]; [(1, [1; 1]%N); (102, [0; 0]%N)]; [(1, [2; 0]%N); (1, [0; 1]%N)]].
Lemma tr_ex_sorted : Forall (sorted_poly 2 (o_lt ord2) 103) tr_ex.
Proof. (constructor; [|constructor; [|constructor]]); apply (sortedb_ok ord2); try apply ord2_ok; try discriminate; vm_compute; reflexivity. Qed.
Example C50_ex : exists T, cfg_ok cfg1 /\ cfg_ok cfg3 /\ c_o cfg1 = c_o cfg3 /\ map lmono f4_ex = map lmono tr_ex /\ t_rds T <> [] /\
  learn_f4 cfg1 20 f4_ex = Ok (out_ex, T) /\ apply_f4 cfg1 20 T f4_ex = Ok (Some out_ex) /\ apply_f4 cfg3 20 T tr_ex = Ok (Some tr_out) /\ core_f4 cfg3 true 20 tr_ex = Ok tr_out.
Proof.
  destruct (learn_f4 cfg1 20 f4_ex) as [[out T]| | |] eqn:E; try (vm_compute in E; discriminate). exists T. split; [apply cfg1_ok|]. split; [apply cfg3_ok|]. split; [reflexivity|]. split; [reflexivity|].
  vm_compute in E. injection E as <- <-. split; [discriminate|]. repeat split; vm_compute; reflexivity.
Qed.
(** x^2 + x, x y modulo 103 has the same leading monomials, but its only pair reduces to zero: refused *)
Example C50_refused_ex : exists T, learn_f4 cfg1 20 f4_ex = Ok (out_ex, T) /\
  apply_f4 cfg3 20 T [[(1, [2; 0]%N); (1, [1; 0]%N)]; [(1, [1; 1]%N)]] = Ok None.
Proof.
  destruct (learn_f4 cfg1 20 f4_ex) as [[out T]| | |] eqn:E; try (vm_compute in E; discriminate). exists T. vm_compute in E. injection E as <- <-. split; [reflexivity|]. vm_compute. reflexivity.
Qed.

(** The condition of C50_correct cannot be dropped: a trace learned at a bad prime can be accepted with a wrong basis.
    The system is x y, x y + 101 y: modulo 101 the generators agree and no pair is treated; modulo 103 the ideal contains y
    but the accepted basis is x y + 101 y alone. *)
Definition bad1 : list (list (Z * mono)) := [[(1, [1; 1]%N)]; [(1, [1; 1]%N)]].
Definition bad2 : list (list (Z * mono)) := [[(1, [1; 1]%N)]; [(1, [1; 1]%N); (101, [0; 1]%N)]].
Lemma bad_sorted : Forall (sorted_poly 2 (o_lt ord2) 101) bad1 /\ Forall (sorted_poly 2 (o_lt ord2) 103) bad2.
Proof. split; (constructor; [|constructor; [|constructor]]); apply (sortedb_ok ord2); try apply ord2_ok; try discriminate; vm_compute; reflexivity. Qed.
Theorem C50_unlucky : exists T out2, cfg_ok cfg1 /\ cfg_ok cfg3 /\ c_o cfg1 = c_o cfg3 /\ map lmono bad1 = map lmono bad2 /\
  learn_f4 cfg1 20 bad1 = Ok ([[(1, [1; 1]%N)]], T) /\ apply_f4 cfg3 20 T bad2 = Ok (Some out2) /\ core_f4 cfg3 true 20 bad2 = Ok [[(1, [0; 1]%N)]] /\
  ~ (same_ideal 2 103 (pfs bad2) (pfs out2) /\ groebner 2 (o_lt ord2) 103 (pfs out2)).
Proof.
  destruct (learn_f4 cfg1 20 bad1) as [[out T]| | |] eqn:E; try (vm_compute in E; discriminate). exists T, [[(1, [1; 1]%N); (101, [0; 1]%N)]]. pose proof cfg1_ok as C1. pose proof cfg3_ok as C3. destruct bad_sorted as [S1 S2].
  assert (O1 : out = [[(1, [1; 1]%N)]]) by (vm_compute in E; injection E as <- <-; reflexivity). subst out.
  assert (O2 : apply_f4 cfg3 20 T bad2 = Ok (Some [[(1, [1; 1]%N); (101, [0; 1]%N)]])) by (clear S1 S2; vm_compute in E; injection E as <-; vm_compute; reflexivity).
  assert (O3 : core_f4 cfg3 true 20 bad2 = Ok [[(1, [0; 1]%N)]]) by (vm_compute; reflexivity).
  split; [exact C1|]. split; [exact C3|]. split; [reflexivity|]. split; [reflexivity|]. split; [reflexivity|]. split; [exact O2|]. split; [exact O3|]. intros HG.
  destruct (C50_correct cfg1 cfg3 20 20 bad1 bad2 _ T _ C1 C3 eq_refl S1 S2 eq_refl E O2) as [[K _] _]. specialize (K HG).
  destruct (C23_sound cfg3 true 20 bad2 _ C3 S2 O3) as (A1 & _ & _ & A4 & _). set (y := [(1, [0; 1]%N)]) in *.
  assert (My : mpoly (o_nv (c_o cfg3)) (o_lt (c_o cfg3)) (c_p cfg3) y) by (apply A4; left; reflexivity).
  destruct (K (cf y) (lmono y)) as (g & [<-|[]] & Hd).
  - apply A1. apply ideal_gen. exists y. split; [left; reflexivity|reflexivity].
  - apply mpoly_lead; [apply o_lt_order|apply (cfg_p cfg3 C3)|exact My].
  - apply mdvdb_iff in Hd; [|reflexivity]. vm_compute in Hd. discriminate.
Qed.
Print Assumptions C50_unlucky.
