(** Properties C68 and C69: the exact sparse-dense linear algebra and F4 with it (option -l 1). *)
From Coq Require Import ZArith NArith Arith List Bool Lia Permutation Sorted Znumtheory.
From Verif Require Import ModInvModel ModInvProofs ModInvProps LinSpec LaSpec LaModel LaProofs LaRowProofs LaSysProofs LaProps ProbProps DlaModel DlaProofs DlaRun.
From Verif Require Import MonoSpec MonoModel MonoSpecProofs MonoCmpProofs GbSpec GbProofs GbIdeal F4Model UpdProofs UpdProps F4Rows SymbProofs SelProofs MatProofs RoundProofs FinalProofs F4Props TraceModel TraceLaProofs TraceProofs TraceRun TraceProps DlaF4.
Import ListNotations.
Open Scope Z_scope.

(** * C68: the linear algebra *)
(** No step of the sparse reduction, of the choice of pivots or of the parallel loop is undefined, whatever the schedule. *)
Theorem C68_safe : forall k p ncl ncols rr tr sched, prime p -> in_class k p -> columns_ok k p ncols -> matrix_ok p ncl ncols rr tr ->
  exists dm P tbr s, ab_cd k p ncl ncols rr tr = Some dm /\ select k p dm (fun _ => None) = Some (P, tbr) /\ (length tbr <= length tr)%nat /\
  dsys_run k p (ncols - ncl) sched {| ds_pivs := P; ds_rows := map DTodo tbr |} = Some s.
Proof.
  intros k p ncl ncols rr tr sched HP HK HC HM. destruct (dense_core k p ncl ncols rr tr sched HP (class_kern k p HK) (columns_room k p ncols HC) HM) as (dm & E1 & L1 & P & tbr & s & E2 & L2 & E3 & _).
  exists dm, P, tbr, s. split; [assumption|]. split; [assumption|]. split; [lia|assumption].
Qed.
Print Assumptions C68_safe.
(** Every row finishes, after a number of steps quadratic in the number of columns, and then the function returns. *)
Theorem C68_terminates : forall k p ncl ncols rr tr sched, prime p -> in_class k p -> columns_ok k p ncols -> matrix_ok p ncl ncols rr tr ->
  (forall t, (t < length tr)%nat -> ((ncols - ncl + 2) * (ncols - ncl + 3) <= count_occ Nat.eq_dec sched t)%nat) ->
  exists l, dense_echelon k p ncl ncols rr tr sched = Some l.
Proof.
  intros k p ncl ncols rr tr sched HP HK HC HM HT. destruct (dense_core k p ncl ncols rr tr sched HP (class_kern k p HK) (columns_room k p ncols HC) HM) as (dm & E1 & L1 & P & tbr & s & E2 & L2 & E3 & HF & HQ).
  unfold dense_echelon. rewrite E1. cbn [obind]. destruct dm as [|u dm]; [eauto|]. rewrite E2. cbn [obind fst snd]. rewrite E3. cbn [obind].
  rewrite HF; [|intros t Ht; replace (budget (ncols - ncl)) with ((ncols - ncl + 2) * (ncols - ncl + 3))%nat by (unfold budget; lia); apply HT; cbn in *; lia].
  destruct HQ as (Q & -> & _); [apply HF; intros t Ht; replace (budget (ncols - ncl)) with ((ncols - ncl + 2) * (ncols - ncl + 3))%nat by (unfold budget; lia); apply HT; cbn in *; lia|]. cbn [obind]. eauto.
Qed.
Print Assumptions C68_terminates.
Lemma dense_out k p ncl ncols rr tr sched l : prime p -> in_class k p -> columns_ok k p ncols -> matrix_ok p ncl ncols rr tr -> dense_echelon k p ncl ncols rr tr sched = Some l ->
  exists Q, l = rows_desc ncl Q (ncols - ncl) /\ reduced_family p ncols Q /\ (forall c, Q c <> None -> (ncl <= c < ncols)%nat) /\
  (forall v, span p (pset_of Q) v <-> span p (gens rr tr) v /\ forall c, (c < ncl)%nat -> eqp p (v c) 0).
Proof.
  intros HP HK HC HM. destruct (dense_core k p ncl ncols rr tr sched HP (class_kern k p HK) (columns_room k p ncols HC) HM) as (dm & E1 & L1 & P & tbr & s & E2 & L2 & E3 & HF & HQ).
  unfold dense_echelon. rewrite E1. cbn [obind]. destruct dm as [|u dm].
  - cbn [select] in E2. injection E2 as <- <-. cbn [map] in E3. destruct HQ as (Q & _ & Q1 & Q2 & Q3 & Q4).
    { apply HF. cbn. intros; lia. }
    intros [= <-]. exists (csh ncl Q). split; [|auto]. rewrite <- convert_rows_desc. specialize (Q4 eq_refl). clear -Q4. induction (ncols - ncl)%nat as [|c IH]; cbn [convert_rows]; [reflexivity|]. rewrite Q4. assumption.
  - rewrite E2. cbn [obind fst snd]. rewrite E3. cbn [obind]. destruct (forallb dfinished (ds_rows s)) eqn:Ef; [|discriminate].
    destruct (HQ eq_refl) as (Q & -> & Q1 & Q2 & Q3 & _). cbn [obind]. intros [= <-]. exists (csh ncl Q). rewrite convert_rows_desc. auto.
Qed.
(** The rows returned are those of the exact sparse variant, in the same order, for all schedules of both. *)
Theorem C68_same : forall k p ncl ncols rr tr s1 s2 l1 l2, prime p -> in_class k p -> columns_ok k p ncols -> matrix_ok p ncl ncols rr tr ->
  dense_echelon k p ncl ncols rr tr s1 = Some l1 -> echelon k p ncl ncols rr tr s2 = Some l2 -> l1 = l2.
Proof.
  intros k p ncl ncols rr tr s1 s2 l1 l2 HP HK HC HM E1 E2.
  destruct (dense_out k p ncl ncols rr tr s1 l1 HP HK HC HM E1) as (Q1 & -> & R1 & _ & S1). destruct (exact_core k p ncl ncols rr tr s2 l2 HP HK HC HM E2) as (Q2 & -> & R2 & _ & S2).
  assert (HE : forall c, Q1 c = Q2 c). { apply (LaSysProofs.reduced_unique p ncols); auto; [apply (class_kern k p HK)|]. intros v. rewrite (S1 v), (S2 v). reflexivity. }
  generalize (ncols - ncl)%nat as cnt. induction cnt as [|cnt IH]; cbn [rows_desc]; [reflexivity|]. rewrite HE, IH. reflexivity.
Qed.
Print Assumptions C68_same.
(** Stated without the sparse variant: a reduced echelon form of the part of the row space that is zero on the columns of the
    reducers. *)
Theorem C68_echelon : forall k p ncl ncols rr tr sched l, prime p -> in_class k p -> columns_ok k p ncols -> matrix_ok p ncl ncols rr tr ->
  dense_echelon k p ncl ncols rr tr sched = Some l ->
  (forall v, span p (fun v => exists r, In r l /\ v = rv r) v <-> span p (gens rr tr) v /\ forall c, (c < ncl)%nat -> eqp p (v c) 0) /\
  (forall r, In r l -> canon p r /\ exists c, (ncl <= c < ncols)%nat /\ pivot_row p ncols c r /\ forall r', In r' l -> r' <> r -> rv r' c = 0) /\ NoDup l.
Proof.
  intros k p ncl ncols rr tr sched l HP HK HC HM E. destruct (dense_out k p ncl ncols rr tr sched l HP HK HC HM E) as (Q & -> & (Q1 & Q2) & Q3 & Q4).
  assert (Hle : (ncl <= ncols)%nat) by apply HM.
  assert (Hin : forall r, In r (rows_desc ncl Q (ncols - ncl)) <-> exists c, Q c = Some r).
  { intros r. rewrite rows_desc_in. split; [intros (c & _ & H); eauto|]. intros (c & H). exists c. split; [|assumption]. specialize (Q3 c). rewrite H in Q3. specialize (Q3 ltac:(discriminate)). lia. }
  split; [|split].
  - intros v. rewrite <- (Q4 v). split; apply span_mono; intros u Hu; apply span_in.
    + destruct Hu as (r & H & ->). apply Hin in H. destruct H as (c & H). exists c, r. auto.
    + destruct Hu as (c & r & H & ->). exists r. split; [apply Hin; eauto|reflexivity].
  - intros r Hr. apply Hin in Hr. destruct Hr as (c & Ec). split; [apply (Q2 c r Ec)|]. exists c. split; [apply Q3; congruence|]. split; [apply Q1; assumption|].
    intros r' Hr' Hne. apply Hin in Hr'. destruct Hr' as (c' & Ec'). apply (Q2 c' r' Ec'); [|congruence]. intros ->. congruence.
  - generalize (ncols - ncl)%nat as cnt. induction cnt as [|cnt IH]; cbn [rows_desc]; [constructor|]. destruct (Q (ncl + cnt)%nat) as [r|] eqn:Er; [|assumption].
    constructor; [|assumption]. rewrite rows_desc_in. intros (c & Hc & Ec).
    destruct (Q1 _ _ Er) as (_ & _ & _ & r1 & E1 & _). destruct (Q1 _ _ Ec) as (_ & _ & _ & r2 & E2 & _). rewrite E1 in E2. injection E2 as E2 _. lia.
Qed.
Print Assumptions C68_echelon.

(** * C69: F4 with option -l 1 *)
Section Dense.
Variable c : config.
Hypothesis CK : cfg_ok c.
Lemma dround_rows_same els sht leads rr tr r : els_ok (o_nv (c_o c)) (o_lt (c_o c)) (c_p c) els -> mat_hyp (c_o c) els sht leads rr tr ->
  dround_rows c r (columns (c_o c) sht leads) rr tr = round_rows c r (columns (c_o c) sht leads) rr tr.
Proof.
  intros HE [M1 M2 M3 M4 M5 M6 M7]. unfold dround_rows, round_rows. set (hcm := fst (columns (c_o c) sht leads) ++ snd (columns (c_o c) sht leads)).
  unfold when. destruct (cols_fit (c_k c) (c_p c) (length hcm)) eqn:Ef; cbn [rbind]; [|reflexivity].
  pose proof (mat_ok (c_o c) (c_p c) (ck_o c CK) sht leads els rr tr HE M1 M2 M3 M4 M5 M6 M7) as HM. fold hcm in HM. pose proof (cols_fit_ok _ _ _ Ef) as HC.
  assert (HS : forall t, (t < length (map (to_row hcm) tr))%nat -> ((length hcm + 2) * (length hcm + 3) <= count_occ Nat.eq_dec (c_sched c r (length hcm) (length tr)) t)%nat) by (intros t Ht; rewrite map_length in Ht; apply (ck_sched c CK); exact Ht).
  destruct (C20_echelon (c_k c) (c_p c) _ _ _ _ (c_sched c r (length hcm) (length tr)) (ck_p c CK) (ck_k c CK) HC HM HS) as (l & E & _).
  destruct (C68_terminates (c_k c) (c_p c) _ _ _ _ (c_sched c r (length hcm) (length tr)) (ck_p c CK) (ck_k c CK) HC HM) as (l' & E').
  { intros t Ht. specialize (HS t Ht). nia. }
  rewrite E, E'. rewrite (C68_same _ _ _ _ _ _ _ _ l' l (ck_p c CK) (ck_k c CK) HC HM E' E). reflexivity.
Qed.
Lemma dround_false F b ps fuel r ds : finv c F b ps -> ps <> [] -> dround c false fuel r b ps ds = let! a := round c fuel r b ps in Ok (fst a, snd a, ds).
Proof.
  intros HI Hne. destruct (round_matrix_ok c r b ps _ (ck_o c CK) (cfg_p c CK) (ck_m c CK) (ck_sort c CK r) (fi_u _ _ _ _ HI) (fi_els _ _ _ _ HI) Hne) as (N & K). specialize (K fuel).
  unfold dround, round. destruct (round_matrix c fuel r b ps) as [[[rest cols] [rr tr]]| | |]; cbn [rbind]; try reflexivity. cbn [okn fst snd] in K. destruct K as (sel & sht & leads & _ & -> & [M1 M2 M3 M4 M5 M6 M7 _ _]).
  rewrite (dround_rows_same (b_el b) sht leads rr tr r (fi_els _ _ _ _ HI)) by (constructor; assumption). destruct (round_rows _ _ _ _ _) as [news| | |]; cbn [rbind]; try reflexivity. cbn [dadd_lms rbind].
  destruct (update_basis _ _ _ _) as [[b1 ps1]| | |]; reflexivity.
Qed.
Lemma dloop_false F : forall fuel b ps r ds, finv c F b ps -> dloop c false fuel r b ps ds = let! a := f4_loop c fuel r b ps in Ok (a, ds).
Proof.
  induction fuel as [|fuel IH]; intros b ps r ds HI; cbn [dloop f4_loop]; destruct (done b ps) eqn:Ed; try reflexivity.
  assert (Hne : ps <> []) by (intros ->; unfold done in Ed; rewrite orb_true_r in Ed; discriminate).
  rewrite (dround_false F) by assumption. destruct (round_ok c CK F r b ps HI Hne) as (N & K). specialize (K (S fuel)). destruct (round c (S fuel) r b ps) as [[b1 ps1]| | |]; cbn [rbind fst snd okn] in *; try reflexivity.
  apply IH. apply K.
Qed.
(** recording: the data of the rounds, with everything but the leading monomials missing *)
Definition blank (d : tdata) : tdata := blank_td (td_nlms d).
Lemma dround_true F b ps fuel r ds b' ps' d : finv c F b ps -> ps <> [] -> learn_round c fuel r b ps = Ok (b', ps', d) ->
  (length d <= 1)%nat /\ dround c true fuel r b ps ds = if (length (ds ++ d) <=? 8)%nat || (length d =? 0)%nat then Ok (b', ps', ds ++ map blank d) else Undef.
Proof.
  intros HI Hne. destruct (round_matrix_ok c r b ps _ (ck_o c CK) (cfg_p c CK) (ck_m c CK) (ck_sort c CK r) (fi_u _ _ _ _ HI) (fi_els _ _ _ _ HI) Hne) as (N & K). specialize (K fuel).
  pose proof (round_matrix_t_snd c fuel r b ps) as ES. unfold learn_round, dround. rewrite <- ES in *. destruct (round_matrix_t c fuel r b ps) as [[[rest cols] [rrT trT]]| | |] eqn:EM; cbn [rfmap rbind]; try discriminate.
  unfold rfmap in K. cbn [rbind forgetm okn fst snd] in K. destruct K as (sel & sht & leads & _ & -> & [M1 M2 M3 M4 M5 M6 M7 _ _]). unfold rfmap, forgetm. cbn [rbind fst snd].
  pose proof (round_matrix_t_good c fuel r b ps _ _ _ _ EM) as HT.
  assert (MH : mat_hyp (c_o c) (b_el b) sht leads (map snd rrT) (map snd trT)) by (constructor; assumption).
  rewrite (dround_rows_same (b_el b) sht leads _ _ r (fi_els _ _ _ _ HI) MH).
  destruct (cols_fit (c_k c) (c_p c) (length (hcm_of (c_o c) sht leads))) eqn:EF.
  2:{ unfold hcm_of in EF. unfold learn_rows, round_rows. rewrite EF. cbn [when rbind]. discriminate. }
  destruct (learn_rows_ok c (b_el b) sht leads rrT trT CK (fi_els _ _ _ _ HI) MH HT r EF) as (news & d0 & EL & -> & _ & TD). rewrite EL. cbn [rbind].
  destruct (update_basis _ _ rest _) as [[b1 ps1]| | |] eqn:EU; cbn [rbind]; try discriminate. intros [= -> -> ->].
  assert (HD : (news = [] /\ d = []) \/ exists d1, d = [d1] /\ td_nlms d1 = map lmono news /\ news <> []).
  { destruct TD as [TD|(d1 & rr' & tr' & -> & TD)]; [left; assumption|right]. exists d1. split; [reflexivity|]. split; [apply (rt_nlms _ _ _ _ _ _ _ _ TD)|].
    apply (learn_rows_ne c (b_el b) sht leads rrT trT CK (fi_els _ _ _ _ HI) MH r news [d1] EF EL). discriminate. }
  assert (HU : dadd_lms true ds (map lmono news) = if (length (ds ++ d) <=? 8)%nat || (length d =? 0)%nat then Ok (ds ++ map blank d) else Undef).
  { destruct HD as [(-> & ->)|(d1 & -> & E1 & E2)]; cbn [map dadd_lms length].
    - rewrite orb_true_r, app_nil_r. reflexivity.
    - destruct news as [|f news]; [congruence|]. cbn [map]. change (lmono f :: map lmono news) with (map lmono (f :: news)). rewrite <- E1. rewrite app_length. cbn [length]. cbn [Nat.eqb]. rewrite orb_false_r.
      destruct (Nat.ltb_spec (length ds) 8); destruct (Nat.leb_spec (length ds + 1) 8); try lia; [|reflexivity]. reflexivity. }
  rewrite HU. split; [destruct HD as [(_ & ->)|(d1 & -> & _)]; cbn; lia|]. destruct ((length (ds ++ d) <=? 8)%nat || (length d =? 0)%nat); reflexivity.
Qed.
Lemma dloop_true F : forall fuel b ps r ds d b', finv c F b ps -> learn_loop c fuel r b ps ds = Ok (b', ds ++ d) ->
  forall ds', length ds' = length ds -> (length ds <= 8)%nat -> dloop c true fuel r b ps ds' = if (length (ds ++ d) <=? 8)%nat then Ok (b', ds' ++ map blank d) else Undef.
Proof.
  induction fuel as [|fuel IH]; intros b ps r ds d b' HI E ds' HL H8; cbn [dloop learn_loop] in *.
  - destruct (done b ps); [|discriminate]. injection E as -> E. rewrite <- (app_nil_r ds) in E at 1. apply app_inv_head in E. subst d. rewrite app_nil_r. destruct (Nat.leb_spec (length ds) 8); [|lia]. cbn [map]. rewrite app_nil_r. reflexivity.
  - destruct (done b ps) eqn:Ed.
    { injection E as -> E. rewrite <- (app_nil_r ds) in E at 1. apply app_inv_head in E. subst d. rewrite app_nil_r. destruct (Nat.leb_spec (length ds) 8); [|lia]. cbn [map]. rewrite app_nil_r. reflexivity. }
    assert (Hne : ps <> []) by (intros ->; unfold done in Ed; rewrite orb_true_r in Ed; discriminate).
    destruct (learn_round_ok c CK F b ps (S fuel) r HI Hne) as [E1 _]. destruct (round_ok c CK F r b ps HI Hne) as (N & K). specialize (K (S fuel)). rewrite <- E1 in K.
    destruct (learn_round c (S fuel) r b ps) as [[[b1 ps1] d1]| | |] eqn:EL; cbn [rfmap rbind] in *; try discriminate. unfold rfmap in K. cbn [rbind fst okn snd] in K. destruct K as [HI1 _].
    destruct (dround_true F b ps (S fuel) r ds' b1 ps1 d1 HI Hne EL) as (Hd & ->).
    destruct (learn_loop_ok c CK F fuel b1 ps1 (S r) (ds ++ d1) HI1) as [_ T2]. destruct (T2 _ _ E) as (d2 & E2 & _). rewrite <- app_assoc in E2. apply app_inv_head in E2. subst d. rewrite app_assoc in E |- *.
    rewrite app_length, HL, <- app_length. destruct (Nat.leb_spec (length (ds ++ d1)) 8) as [L8|L8]; cbn [orb].
    + cbn [rbind]. rewrite (IH b1 ps1 (S r) (ds ++ d1) d2 b' HI1 E); [|rewrite !app_length, map_length; lia|assumption]. rewrite map_app, (app_assoc ds'). reflexivity.
    + rewrite app_length in L8. destruct d1 as [|d0 d1]; [cbn in L8; lia|]. cbn [length Nat.eqb rbind]. rewrite !app_length in *. cbn [length] in *. destruct (Nat.leb_spec (length ds + S (length d1) + length d2) 8); [lia|reflexivity].
Qed.
End Dense.

(** Over a prime field the basis computed with option -l 1 is the basis computed with the exact sparse linear algebra: all that is
    proved about it (C23, C41, C42) holds with this option. *)
Theorem C69_same_basis : forall c red fuel F, cfg_ok c -> Forall (sorted_poly (o_nv (c_o c)) (o_lt (c_o c)) (c_p c)) F ->
  match dcore_f4 c false red fuel F with
  | Ok (out, T) => core_f4 c red fuel F = Ok out /\ t_rds T = []
  | Limit => core_f4 c red fuel F = Limit
  | More => core_f4 c red fuel F = More
  | Undef => False
  end.
Proof.
  intros c red fuel F CK HF. destruct (core_f4_ok c CK F red HF) as (N & KK). specialize (KK fuel). unfold dcore_f4. unfold core_f4 in KK |- *. destruct (normalize_all c CK F HF) as (F' & EF & MF & SF). rewrite EF in *. cbn [rbind] in *.
  pose proof (start_ok c F' MF) as ST. destruct (update_basis _ _ [] _) as [[b0 ps0]| | |]; cbn [okl rbind fst snd] in *; [|reflexivity|reflexivity|contradiction].
  rewrite (dloop_false c CK F' fuel b0 ps0 O [] ST). destruct (f4_loop c fuel 0 b0 ps0) as [b| | |]; cbn [rbind] in *; [|reflexivity|reflexivity|contradiction].
  destruct red; cbn [okn] in *.
  - destruct (reduce_final c fuel (b_el b) (final_lmps b)); cbn [rbind okn] in *; auto.
  - destruct (rmap _ (final_lmps b)); cbn [rbind okn] in *; auto.
Qed.
Print Assumptions C69_same_basis.

(** Over Q the same run is also asked to record a trace. What is recorded are the leading monomials of each round and nothing
    else; with more than eight rounds that found something the array of rounds is overrun. *)
Theorem C69_learn : forall c fuel F out T, cfg_ok c -> Forall (sorted_poly (o_nv (c_o c)) (o_lt (c_o c)) (c_p c)) F -> learn_f4 c fuel F = Ok (out, T) ->
  dcore_f4 c true true fuel F = if (length (t_rds T) <=? 8)%nat then Ok (out, {| t_rds := map (fun d => blank_td (td_nlms d)) (t_rds T); t_lmps := t_lmps T |}) else Undef.
Proof.
  intros c fuel F out T CK HF. unfold learn_f4, dcore_f4. destruct (normalize_all c CK F HF) as (F' & EF & MF & SF). rewrite EF. cbn [rbind].
  pose proof (start_ok c F' MF) as ST. destruct (update_basis _ _ [] _) as [[b0 ps0]| | |]; cbn [okl rbind fst snd] in *; try discriminate.
  destruct (learn_loop c fuel 0 b0 ps0 []) as [[b ds]| | |] eqn:EL; cbn [rbind]; try discriminate.
  rewrite (dloop_true c CK F' fuel b0 ps0 O [] ds b ST EL []) by (cbn; lia). cbn [app].
  destruct (reduce_final c fuel (b_el b) (final_lmps b)) as [out'| | |] eqn:ER; cbn [rbind]; try discriminate. intros [= <- <-]. cbn [t_rds t_lmps].
  destruct (length ds <=? 8)%nat; cbn [rbind]; [|reflexivity]. rewrite ER. reflexivity.
Qed.
Print Assumptions C69_learn.

Lemma dloop_blank c : forall fuel b ps r ds b' ds', dloop c true fuel r b ps ds = Ok (b', ds') ->
  (forall d, In d ds -> exists n, n <> [] /\ d = blank_td n) -> forall d, In d ds' -> exists n, n <> [] /\ d = blank_td n.
Proof.
  induction fuel as [|fuel IH]; intros b ps r ds b' ds' E H; cbn [dloop] in E; (destruct (done b ps); [injection E as <- <-; exact H|]); [discriminate|].
  destruct (dround c true (S fuel) r b ps ds) as [[[b1 ps1] d1]| | |] eqn:ER; cbn [rbind] in E; try discriminate. apply (IH _ _ _ _ _ _ E). clear IH E. unfold dround in ER.
  destruct (round_matrix c (S fuel) r b ps) as [[[rest cols] [rr tr]]| | |]; cbn [rbind] in ER; try discriminate. destruct (dround_rows _ _ _ _ _) as [news| | |]; cbn [rbind] in ER; try discriminate.
  destruct (dadd_lms true ds (map lmono news)) as [d2| | |] eqn:EA; cbn [rbind] in ER; try discriminate. destruct (update_basis _ _ _ _) as [[b2 ps2]| | |]; cbn [rbind] in ER; try discriminate. injection ER as <- <- <-.
  unfold dadd_lms in EA. destruct (map lmono news) as [|m ms]; [injection EA as <-; exact H|]. destruct (_ <? _)%nat; [|discriminate]. injection EA as <-.
  intros d Hd. apply in_app_or in Hd as [Hd|[<-|[]]]; [auto|]. exists (m :: ms). split; [discriminate|reflexivity].
Qed.
(** Such a trace is useless: if the learning run found one new element in any round, then the application refuses every prime and
    every system. (A run over Q never gets a second modular image.) *)
Theorem C69_refused : forall c1 c2 red fuel1 fuel2 F1 F2 out T, cfg_ok c2 -> Forall (sorted_poly (o_nv (c_o c2)) (o_lt (c_o c2)) (c_p c2)) F2 ->
  dcore_f4 c1 true red fuel1 F1 = Ok (out, T) -> t_rds T <> [] -> dapply_f4 c2 fuel2 T F2 = Ok None.
Proof.
  intros c1 c2 red fuel1 fuel2 F1 F2 out T CK HF E Hn. unfold dcore_f4 in E. destruct (rmap _ F1) as [F1'| | |]; cbn [rbind] in E; try discriminate. destruct (update_basis _ _ [] _) as [[b0 ps0]| | |]; cbn [rbind] in E; try discriminate.
  destruct (dloop c1 true fuel1 0 b0 ps0 []) as [[b ds]| | |] eqn:EL; cbn [rbind] in E; try discriminate. assert (HB := dloop_blank c1 _ _ _ _ _ _ _ EL ltac:(intros d [])).
  assert (ET : t_rds T = ds) by (destruct (if red then _ else _) as [o1| | |]; cbn [rbind] in E; try discriminate; injection E as <- <-; reflexivity). rewrite ET in Hn.
  unfold dapply_f4. destruct (normalize_all c2 CK F2 HF) as (F2' & EF & _). rewrite EF. cbn [rbind]. rewrite ET. destruct ds as [|d ds]; [congruence|]. destruct (HB d (or_introl eq_refl)) as (n & Hnn & ->).
  cbn [dapply_loop]. assert (ER : dapply_round c2 0 (map (mk_elt (o_nev (c_o c2))) F2') (blank_td n) = Ok None); [|rewrite ER; reflexivity].
  unfold dapply_round, blank_td. cbn [td_rri td_tri td_nlms rmap rbind app map]. unfold dround_rows.
  assert (Ec : columns (c_o c2) (sht_rows [] []) [] = ([], [])) by (destruct (c_o c2); reflexivity). rewrite Ec. cbn [fst snd app length].
  assert (Ef : cols_fit (c_k c2) (c_p c2) 0 = true).
  { unfold cols_fit. pose proof (ck_k c2 CK) as HK. pose proof (prime_ge_2 _ (ck_p c2 CK)). destruct (c_k c2); auto; apply Z.leb_le; unfold in_class in HK; nia. }
  rewrite Ef. cbn [when rbind map]. cbn [dense_echelon ab_cd obind of_opt rbind rev rmap length]. destruct n; [congruence|reflexivity].
Qed.
Print Assumptions C69_refused.

(** * Cases meeting the hypotheses *)
(** The matrix of C20_ex (hypotheses: C20_ex_hyp) with schedules in which the rows run one after the other and in which they
    race; the last row of ex_tr0 is the sum of the first two rows and reduces to zero. *)
Definition ex_tr0 : list srow := ex_tr ++ [[(0%nat, 9); (1%nat, 1); (2%nat, 1); (3%nat, 4); (4%nat, 11)]].
Definition sched4 := concat (repeat [3; 2; 0; 1]%nat 60).
Example C68_ex : exists l, dense_echelon K8 251 2 5 ex_rr ex_tr sched_seq = Some l /\ dense_echelon K8 251 2 5 ex_rr ex_tr sched_rr = Some l /\ length l = 3%nat /\
  echelon K8 251 2 5 ex_rr ex_tr sched_rr = Some l /\ dense_echelon K16 251 2 5 ex_rr ex_tr sched_rr = Some l /\ dense_echelon K17 251 2 5 ex_rr ex_tr sched_seq = Some l /\
  dense_echelon K31 251 2 5 ex_rr ex_tr0 sched4 = Some l.
Proof. eexists. split; [vm_compute; reflexivity|]. repeat split; vm_compute; reflexivity. Qed.
(** two dense rows with the same first column: one becomes a pivot when the pivots are chosen, the other is left for the loop *)
Example C68_ex_loop : exists P u, (match ab_cd K31 251 2 5 ex_rr ex_tr0 with Some dm => select K31 251 dm (fun _ => None) | None => None end) = Some (P, u) /\ length u = 3%nat.
Proof. eexists _, _. split; [vm_compute; reflexivity|]. reflexivity. Qed.

(** two polynomials in one variable of degree 10 and 11 modulo 101: as in Euclid's algorithm every round finds one element *)
Definition euclid_ex : list (list (Z * mono)) :=
  [map (fun t => (Z.of_N (fst t), [snd t; 0%N])) [(7, 10); (72, 9); (67, 8); (75, 7); (79, 6); (96, 5); (97, 4); (91, 3); (89, 2); (32, 1); (7, 0)]%N;
   map (fun t => (Z.of_N (fst t), [snd t; 0%N])) [(15, 11); (13, 10); (49, 9); (62, 8); (5, 7); (92, 6); (90, 5); (78, 4); (61, 3); (10, 2); (69, 1); (13, 0)]%N].
Lemma euclid_sorted : Forall (sorted_poly 2 (o_lt ord2) 101) euclid_ex.
Proof. (constructor; [|constructor; [|constructor]]); apply (sortedb_ok ord2); try apply ord2_ok; try discriminate; vm_compute; reflexivity. Qed.
(** The overrun happens: ten rounds. Without recording, and with the exact sparse linear algebra, the same run is fine. *)
Theorem C69_overrun : exists c F out, cfg_ok c /\ Forall (sorted_poly (o_nv (c_o c)) (o_lt (c_o c)) (c_p c)) F /\
  dcore_f4 c true true 30 F = Undef /\ core_f4 c true 30 F = Ok out /\ exists T, learn_f4 c 30 F = Ok (out, T) /\ (8 < length (t_rds T))%nat.
Proof.
  exists cfg1, euclid_ex. destruct (learn_f4 cfg1 30 euclid_ex) as [[out T]| | |] eqn:E; try (vm_compute in E; discriminate). exists out. split; [apply cfg1_ok|]. split; [apply euclid_sorted|].
  assert (HT : (8 < length (t_rds T))%nat). { clear -E. vm_compute in E. injection E as _ <-. cbn. lia. }
  split; [|split].
  - rewrite (C69_learn cfg1 30 euclid_ex out T cfg1_ok euclid_sorted E). destruct (Nat.leb_spec (length (t_rds T)) 8); [lia|reflexivity].
  - pose proof (C43_learn_same cfg1 30 euclid_ex cfg1_ok euclid_sorted) as H. rewrite E in H. exact H.
  - exists T. auto.
Qed.
Print Assumptions C69_overrun.
(** The system of C50_ex: learned modulo 101, refused modulo 101 and 103; the exact sparse variant accepts both (C50_ex). *)
Example C69_refused_ex : exists T, cfg_ok cfg3 /\ Forall (sorted_poly 2 (o_lt ord2) 103) tr_ex /\ dcore_f4 cfg1 true true 20 f4_ex = Ok (out_ex, T) /\ t_rds T <> [] /\
  dapply_f4 cfg3 20 T tr_ex = Ok None /\ dapply_f4 cfg1 20 T f4_ex = Ok None.
Proof.
  destruct (dcore_f4 cfg1 true true 20 f4_ex) as [[out T]| | |] eqn:E; try (vm_compute in E; discriminate). exists T. split; [apply cfg3_ok|]. split; [apply tr_ex_sorted|].
  vm_compute in E. injection E as <- <-. split; [reflexivity|]. split; [discriminate|]. split; vm_compute; reflexivity.
Qed.
Example C69_same_ex : exists T, dcore_f4 cfg1 false true 20 f4_ex = Ok (out_ex, T) /\ core_f4 cfg1 true 20 f4_ex = Ok out_ex.
Proof. eexists. split; vm_compute; reflexivity. Qed.
