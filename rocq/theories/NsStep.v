(** From the input to the answer when the elimination polynomial has multiple factors: proofs. *)
From Coq Require Import ZArith NArith Arith List Bool Lia Sorted Znumtheory.
From Verif Require Import ModInvModel LinSpec MonoSpec MonoSpecProofs MonoModel MonoCmpProofs HilbSpec HilbModel HilbLoopProofs HilbProps GbSpec GbProofs GbIdeal F4Model UpdProps F4Rows RoundProofs FinalProofs F4Props.
From Verif Require Import FpSpec FglmSpec NmodModel FpProofs BmModel BmProofs BmProps FglmModel MatVecProofs SeqProofs HankelProofs ShapeProofs ParamProofs FglmCore FglmProps BuildModel StairProofs BuildProofs BasisProofs LinTabProofs BuildProps NfModel NfProps StepSpec StepModel StepProofs RexFp NsSpec NsModel NsProofs NsRun.
Import ListNotations.
Open Scope nat_scope.

(** the places of the squares *)
Lemma ex_two (m : mono) : forall i j, i <> j -> (ex m i + ex m j <= mdeg m)%N.
Proof.
  induction m as [|x m IH]; intros i j N; [unfold ex; destruct i, j; cbn; lia|]. rewrite mdeg_cons. destruct i as [|i], j as [|j]; [contradiction| | |].
  - change (ex (x :: m) 0) with x. change (ex (x :: m) (S j)) with (ex m j). pose proof (ex_le_mdeg m j). lia.
  - change (ex (x :: m) 0) with x. change (ex (x :: m) (S i)) with (ex m i). pose proof (ex_le_mdeg m i). lia.
  - change (ex (x :: m) (S i)) with (ex m i). change (ex (x :: m) (S j)) with (ex m j). specialize (IH i j ltac:(congruence)). lia.
Qed.
Lemma square_of_ok nv (m : mono) j : length m = nv -> square_of m = Some j -> m = xp nv j 2.
Proof.
  intros L H. unfold square_of in H. destruct (N.eqb_spec (mdeg m) 2) as [D|]; [|discriminate]. apply find_some in H as [Hj He]. apply in_seq in Hj. apply N.eqb_eq in He.
  apply (BasisProofs.mono_ext nv); [exact L|unfold FglmSpec.xpow; rewrite map_length, seq_length; reflexivity|]. intros i Hi. unfold ex at 2, FglmSpec.xpow. rewrite nth_map_seq by exact Hi. destruct (Nat.eqb_spec i j) as [->|N]; [rewrite He; reflexivity|]. pose proof (ex_two m i j N). lia.
Qed.
Lemma squvars_from_ok nv (l : list mono) : (forall m, In m l -> length m = nv) -> forall i lmb squ, (forall q, squ q <> 0 -> squ q < length l /\ nth (squ q) l [] = xp nv q 2) ->
  (forall k, k < length lmb -> i + k < length l /\ nth (i + k) l [] = nth k lmb []) -> forall q, squvars_from i lmb squ q <> 0 -> squvars_from i lmb squ q < length l /\ nth (squvars_from i lmb squ q) l [] = xp nv q 2.
Proof.
  intros LL i lmb. revert i. induction lmb as [|m r IH]; intros i squ H1 H2 q; cbn [squvars_from]; [apply H1|].
  apply (IH (S i)).
  - destruct (square_of m) as [j|] eqn:E; [|exact H1]. intros q'. destruct (Nat.eqb_spec q' j) as [->|_]; [|apply H1]. intros _. destruct (H2 0 ltac:(cbn; lia)) as [A B]. rewrite Nat.add_0_r in A, B. cbn [nth] in B. split; [exact A|]. rewrite B. apply (square_of_ok nv m j); [|exact E]. rewrite <- B. apply LL. apply nth_In. exact A.
  - intros k Hk. destruct (H2 (S k) ltac:(cbn; lia)) as [A B]. replace (S i + k) with (i + S k) by lia. split; [exact A|exact B].
Qed.
Lemma squvars_ok nv (l : list mono) : (forall m, In m l -> length m = nv) -> square_basis nv (length l) (squvars l) (fun i => cf [(1%Z, nth i l [])]).
Proof.
  intros LL q Hq NZ. destruct (squvars_from_ok nv l LL 0 l (fun _ => 0)) with (q := q) as [A B]; [intros q' []; reflexivity|intros k Hk; split; [exact Hk|reflexivity]|exact NZ|]. fold (squvars l) in A, B. split; [exact A|]. intros m _. rewrite B. reflexivity.
Qed.

(** a linear form whose leading variable is the last one *)
Lemma lin_last nv p eq m : 1 <= nv -> (forall k, k < nv - 1 -> nth k eq 0%Z = 0%Z) -> nth (nv - 1) eq 0%Z = 1%Z -> eqp p (linear_form nv eq m) (uni_at nv (nv - 1) [nth nv eq 0%Z; 1%Z] m).
Proof.
  intros NV A B. unfold linear_form. rewrite (sumn_ext nv _ (fun k => if k =? nv - 1 then cf [(1%Z, xp nv (nv - 1) 1)] m else 0%Z)).
  2: { intros k Hk. destruct (Nat.eqb_spec k (nv - 1)) as [->|N]; [rewrite B; ring|]. rewrite A by lia. ring. }
  rewrite (sumn_delta nv (nv - 1)) by lia. unfold uni_at. cbn [length seq map nth]. exists 0%Z. cbn [cf fst snd]. rewrite (xpow_0 nv). destruct (mono_dec (xp nv (nv - 1) 1) m), (mono_dec (mone nv) m); ring.
Qed.

(** the contracts of the parts outside the model *)
Definition env2_ok (p : Z) (e : env2) : Prop :=
  sqf_contract p (e2_sqf e) (e2_sqpart e) /\ part_contract p (e2_sqpart e) /\ xgcd_contract p (e2_xg e) /\ (forall k, 1 <= e2_lam e k < p)%Z /\ (forall n, 2 <= e2_al e n) /\
  forall D, length (e2_v e D) = D /\ (forall x, In x (e2_v e D) -> (0 <= x < p)%Z) /\ length (e2_old e D) = D.
(** the answer (E, cs) for the elimination polynomial V *)
Definition ns_spec (nv : nat) (p : Z) (G : pf -> Prop) (V E : list Z) (cs : list (list Z)) : Prop :=
  exists Q, squarefree_part p V Q E /\ (coords_exist nv p (colon nv p G Q) (fun _ => false) -> parametrises nv p (colon nv p G Q) (length E - 1) E cs /\ generates_last nv p (colon nv p G Q) E).

Section Shape.
Variables (nv : nat) (p : Z) (G : pf -> Prop).
Hypothesis Hp : prime p.
Hypothesis NV : 1 <= nv.
Open Scope Z_scope.
Notation "a == b" := (FpSpec.peq p a b) (at level 70).
Add Ring pr_nst : (pring p) (setoid (peq_eq p) (prext p)).
Lemma monic_unique a b k j : monic_of_degree p a k -> monic_of_degree p b j -> pdvd p a b -> pdvd p b a -> a = b.
Proof.
  intros Ma Mb D1 D2. destruct (nf_of_monic p Hp _ _ Ma) as [Na Da], (nf_of_monic p Hp _ _ Mb) as [Nb Db]. pose proof (pdvd_deg p Hp _ _ _ _ D1 Da Db) as L1. pose proof (pdvd_deg p Hp _ _ _ _ D2 Db Da) as L2. assert (j = k) by lia. subst j.
  apply (nf_ext p Hp); [exact Na|exact Nb|]. destruct D1 as [c Ec]. assert (Dc : hdeg p (FpSpec.pmul c a) k) by (apply (hdeg_ext p b); assumption). pose proof Dc as Dc'. apply (hdeg_factor p Hp) in Dc' as (i & i' & Di & Da' & Ei). pose proof (hdeg_uniq p _ _ _ Da' Da) as ->. assert (i = 0%nat) by lia. subst i.
  assert (C0 : c == [pc c 0]). { intros [|i]; [reflexivity|]. rewrite pc_consS, pc_nil. apply (proj1 Di). lia. }
  assert (T : eqp p (pc c 0) 1). { destruct Ma as (_ & Ta & _), Mb as (_ & Tb & _). change (nth k a 0) with (pc a k) in Ta. change (nth k b 0) with (pc b k) in Tb. specialize (Ec k). rewrite Tb in Ec. destruct (pmul_top p c a 0 k (hdeg_dlt p _ _ Di) (hdeg_dlt p _ _ Da)) as [_ T]. cbn [Nat.add] in T. rewrite T, Ta, Z.mul_1_r in Ec. symmetry. exact Ec. }
  symmetry. rewrite Ec. transitivity (FpSpec.pmul [1] a); [|ring]. rewrite C0. assert (E1 : [pc c 0] == [1]) by (intros [|i]; [exact T|reflexivity]). rewrite E1. reflexivity.
Qed.
Lemma shape_spec d V w E cs : parametrises nv p G d E cs -> squarefree p E -> generates_last nv p G E -> monic_of_degree p V w -> generates_last nv p G V -> ns_spec nv p G V E cs.
Proof.
  intros P SF GE MV GV. assert (ME : monic_of_degree p E d) by (split; [apply P|split; apply P]).
  assert (V = E) as ->. { apply (monic_unique V E w d MV ME); [apply GV, GE, pdvd_refl|apply GE, GV, pdvd_refl]. }
  exists [1]. split; [split; [ring|split; [exact SF|]]; exists 1%nat; cbn [ppow]; exists [1]; ring|]. intros _. destruct P as (P1 & P2 & P3 & P4 & P5 & P6). rewrite P1. replace (S d - 1)%nat with d by lia.
  assert (IJ : forall f, ideal nv p G f -> ideal nv p (colon nv p G [1]) f) by (intros f Hf; apply ideal_gen; apply (colon_incl nv p G [1] NV); exact Hf). split.
  - split; [exact P1|]. split; [exact P2|]. split; [exact P3|]. split; [apply IJ; exact P4|]. split; [exact P5|]. intros k Hk. destruct (P6 k Hk) as (A & B & C & D). split; [exact A|]. split; [exact B|]. split; [exact C|]. apply IJ. exact D.
  - intros g. rewrite (J_iff nv p G [1] NV), (colon_uni nv p G [1] NV g), (GE (FpSpec.pmul [1] g)). split; intros [c Ec]; exists c; [transitivity (FpSpec.pmul [1] g); [ring|exact Ec]|transitivity g; [ring|exact Ec]].
Qed.
End Shape.

Lemma basis_answer_ok c e fuel round G E cs : cfg_ok c -> o_nev (c_o c) = 0 -> o_mo (c_o c) <> 1 -> 1 <= o_nv (c_o c) -> c_p c <> 2%Z -> env2_ok (c_p c) e ->
  reduced_gb (o_nv (c_o c)) (c_p c) G -> small_basis (o_nv (c_o c)) G -> basis_answer c e fuel round G = F4Model.Ok (AParam E cs) ->
  exists l, monomial_basis fuel (o_nv (c_o c)) (lead_monos G) = HilbModel.Ok (Some l) /\ quotient_basis (o_nv (c_o c)) (c_p c) (pfs G) l /\ forall V w, monic_of_degree (c_p c) V w -> 2 <= w -> generates_last (o_nv (c_o c)) (c_p c) (pfs G) V ->
    (forall M, mult_matrix (o_nv (c_o c)) (c_p c) (pfs G) (length l) (fun i => cf [(1%Z, nth i l [])]) M -> minimal_polynomial (c_p c) V (fun i => mpow (length l) M (fun j => nth j (e2_v e (length l)) 0%Z) i 0)) ->
    ns_spec (o_nv (c_o c)) (c_p c) (pfs G) V E cs.
Proof.
  intros CK E0 E1 NV N2 (SQ & PC & XG & LM & AL & HE) HG [SZ FW] RUN0. set (nv := o_nv (c_o c)) in *. set (p := c_p c) in *. pose proof (ck_p c CK) as Hp. fold p in Hp. assert (P2 : (2 <= p)%Z) by (destruct Hp; lia).
  unfold basis_answer in RUN0. fold nv p in RUN0. change (lead_monos G) with (leads G) in RUN0.
  destruct (forallb fits (leads G)) eqn:EF; [|discriminate RUN0]. cbn [when rbind] in RUN0. destruct (single_constant nv (leads G)) eqn:ES; [discriminate RUN0|].
  destruct (table_ok nv p G NV P2 HG) as (lv & eqs & ET & LL & LV & EQ). rewrite ET in RUN0. cbn [of_opt rbind] in RUN0.
  assert (LK : lms_ok nv (leads G)). { apply Forall_forall. intros l Hl. split; [apply (leads_len nv p G P2 HG l Hl)|]. intros i. rewrite forallb_forall in EF. specialize (EF l Hl). unfold fits in EF. apply N.ltb_lt in EF. pose proof (ex_le_mdeg l i). unfold i32_max. change (2 ^ 16)%N with 65536%N in EF. lia. }
  pose proof (has_dimension_zero_ok nv (leads G) NV (lms_ok_len _ _ LK) (leads_minimal nv p G P2 HG) (single_no nv p G NV Hp HG ES)) as DZ.
  destruct (has_dimension_zero nv (leads G)) eqn:EZ; [|discriminate RUN0].
  destruct (basis_run nv (leads G) NV LK (proj1 DZ eq_refl) FW (one_standard nv p G NV Hp HG ES)) as (lmb & BS & BI & D1 & DL & RUN).
  destruct (RUN fuel) as [ER|[ER HF]]; rewrite ER in RUN0; [|discriminate RUN0]. assert (SB : length (border nv lmb) <= length lmb) by apply filter_len_le.
  pose proof (basis_ok nv p G NV Hp HG lmb BS BI) as QB. exists lmb. split; [exact ER|]. split; [exact QB|].
  destruct (C59_matrix nv p G lmb (mono_nf c fuel G) (e2_unstable e) NV P2 HG BS BI D1 (mono_nf_contract c fuel G CK E0 E1 HG) SZ ltac:(lia) ltac:(nia)) as [(_ & K)|[(_ & _ & K1 & K)|(_ & m & M & K & EC & R & MM)]]; rewrite K in RUN0; cbn [of_opt rbind] in RUN0; try discriminate RUN0.
  destruct (HE (length lmb)) as (V1 & V2 & V3). set (v := e2_v e (length lmb)) in *. set (old := e2_old e (length lmb)) in *.
  assert (HV : holds_vec p (length lmb) v (fun j => nth j v 0%Z)). { split; [exact V1|]. intros i Hi. symmetry. apply Z.mod_small. apply V2. apply nth_In. lia. }
  set (lin := fun k => negb (nth k lv 0 =? 0)) in *. set (nl := length (filter (lead_var nv (leads G)) (seq 0 nv))) in *. set (squ := squvars lmb) in *.
  set (sq := square_entry (e2_k e) p m squ nv lin v old).
  destruct (run_fglm nv p G NV Hp HG lmb (e2_k e) (e2_sqf e) (e2_sqpart e) sq m M v old lv eqs BS BI D1 N2 SQ EC R MM LV EQ HV V3) as (r & Er & SR). fold lin nl in Er.
  intros V w MV W2 GV MIN0. pose proof (MIN0 M MM) as MIN.
  destruct (fglm_all _ _ _ _ _ _ _ _ _ _ _ _ _ _ _) as [ra|] eqn:EA in RUN0; [|discriminate RUN0]. cbn [of_opt rbind] in RUN0. unfold fglm_all in EA. cbv zeta in EA. fold sq in EA.
  assert (EA' : fglm (e2_k e) p (e2_sqf e) (e2_sqpart e) m sq nv (nv - nl) lin eqs v old = Some r) by exact Er.
  destruct r as [elim cs0| | | |].
  - rewrite EA' in EA. cbn [obind] in EA. injection EA as <-. cbn [answer_of] in RUN0. destruct (_ && _ && _); cbn [of_opt] in RUN0; [discriminate RUN0|]. injection RUN0 as -> ->. destruct SR as (P & SF & GE). apply (shape_spec nv p (pfs G) Hp NV (length lmb) V w E cs P SF GE MV GV).
  - rewrite EA' in EA. cbn [obind] in EA. injection EA as <-. discriminate RUN0.
  - destruct SR.
  - rewrite EA' in EA. cbn [obind] in EA. injection EA as <-. discriminate RUN0.
  - assert (PU : (p < 1518500213)%Z). { destruct (Z_lt_le_dec p 1518500213) as [|PU]; [assumption|]. unfold fglm in EA'. rewrite (proj2 (Z.leb_le _ _) PU) in EA'. discriminate EA'. }
    assert (D2 : 2 <= length lmb). { destruct (Nat.eq_dec (length lmb) 1) as [D|]; [|pose proof (len1 lmb D1); lia]. destruct (run_one nv p G NV Hp HG lmb (e2_k e) (e2_sqf e) (e2_sqpart e) sq m M v old lv eqs BS BI D1 N2 SQ EC R MM LV EQ HV V3 D PU) as (x & y & Ex & _). fold lin nl in Ex. congruence. }
    assert (EL : lead_var nv (leads G) (nv - 1) = false).
    { destruct (lead_var nv (leads G) (nv - 1)) eqn:EL; [|reflexivity]. exfalso. assert (EQ' := EQ). rewrite (last_split nv NV lmb m old EC V3 (fun x => x) (lead_var nv (leads G))), EL in EQ'. apply Forall2_app_inv_l in EQ' as (e1 & e2 & _ & E2 & _). inversion E2 as [|x eq ? ? LR _]. subst x.
      destruct LR as (A1 & A2 & A3 & A4 & A5). assert (UL : ideal nv p (pfs G) (uni_at nv (nv - 1) [nth nv eq 0%Z; 1%Z])).
      { eapply I_eq; [exact A5|]. intros x Hx. symmetry. apply (lin_last nv p); assumption. }
      apply GV in UL. destruct (nf_of_monic p Hp _ _ MV) as [_ DV]. assert (DU : hdeg p [nth nv eq 0%Z; 1%Z] 1). { split; [intros i Hi; rewrite pc_over by (cbn; lia); reflexivity|]. cbn. apply (one_ne p Hp). } pose proof (pdvd_deg p Hp _ _ _ _ UL DV DU). lia. }
    pose proof (room nv p G NV Hp HG lmb m old BS BI D1 EC V3) as RM. fold nl in RM. pose proof (nl_le nv G) as NL. fold nl in NL. pose proof (filter_negb_len (lead_var nv (leads G)) (seq 0 nv)) as F. rewrite seq_length in F. fold nl in F.
    pose proof (lin_eq nv G lv LV) as LE. fold lin in LE.
    assert (EF' : filter lin (seq 0 (nv - 1)) = filter (lead_var nv (leads G)) (seq 0 nv)).
    { rewrite (last_split nv NV lmb m old EC V3 (fun x => x) (lead_var nv (leads G))), EL, app_nil_r. apply filter_ext_in. intros q Hq. apply in_seq in Hq. symmetry. apply LE. lia. }
    assert (EN : length (filter (fun q => negb (lin q)) (seq 0 (nv - 1))) < nv - nl).
    { rewrite (filter_ext_in (fun q => negb (lin q)) (fun q => negb (lead_var nv (leads G) q)) (seq 0 (nv - 1))) by (intros q Hq; apply in_seq in Hq; rewrite LE by lia; reflexivity). pose proof (last_split nv NV lmb m old EC V3 (fun x => x) (fun q => negb (lead_var nv (leads G) q))) as LS. cbv beta in LS. rewrite EL in LS. cbn [negb] in LS. rewrite LS, app_length in F. cbn [length] in F. lia. }
    pose proof (var_basis_ext nv _ lin _ LE (BasisProofs.place_ok nv (leads G) lmb NV (leads_len nv p G P2 HG) BS BI (len1 lmb D1) EL)) as VB.
    assert (EQ' : Forall2 (linear_row nv p (pfs G)) (filter lin (seq 0 (nv - 1))) eqs) by (rewrite EF'; exact EQ).
    assert (ST : ns_setting p (e2_sqf e) (e2_sqpart e) (e2_xg e) (e2_al e) m squ (e2_lam e) nv (nv - nl) lin eqs v old M (pfs G) (fun i => cf [(1%Z, nth i lmb [])]) (fun j => nth j v 0%Z)).
    { constructor; try assumption; try lia; try (rewrite EC; try assumption; try lia).
      - apply QB.
      - apply squvars_ok. intros x Hx. apply BI in Hx. apply Hx. }
    assert (LU : lucky p nv (pfs G) (m_ncols m) M (fun j => nth j v 0%Z) V w) by (split; [exact MV|]; split; [rewrite EC; exact MIN|exact GV]).
    assert (NS : ~ (w = m_ncols m /\ squarefree p V)). { intros [Ew SF]. destruct SR as (M' & MM' & W). apply (W V); [rewrite <- EC, <- Ew; exact MV| |exact SF]. apply MIN0; exact MM'. }
    destruct w as [|w]; [lia|]. destruct (PC V w MV) as (Q & j & ME & SP). exists Q.
    destruct (until (e2_k e) p (e2_sqf e) (e2_sqpart e) (e2_xg e) (e2_al e) m squ (e2_lam e) nv (nv - nl) lin eqs v old M (pfs G) _ _ ST V (S w) MV (proj1 (proj2 LU)) NS) as (res & _ & _ & RU). cbn [Nat.eqb] in RU.
    unfold fglm_all in RU. cbv zeta in RU. fold sq in RU. rewrite EA in RU.
    destruct (non_shape _ _ _ _ _ _ _ _ _ _ _ _ _) as [rn|] eqn:EN' in RU; [|discriminate RU]. cbn [obind] in RU. injection RU as ->. destruct rn as [|ok el cs1]; [discriminate RUN0|]. cbn [answer_of] in RUN0. destruct ok; [|discriminate RUN0].
    assert (RE : el = E /\ cs1 = cs) by (destruct (_ && _ && _) in RUN0; [discriminate RUN0|]; cbn [of_opt] in RUN0; injection RUN0 as -> ->; split; reflexivity). destruct RE as [-> ->]. clear RUN0.
    assert (LEq : (length eqs =? nv) = false). { apply Nat.eqb_neq. assert (FL : forall (A B : Type) (P : A -> B -> Prop) l l', Forall2 P l l' -> length l = length l') by (induction 1; cbn [length]; congruence). rewrite <- (FL _ _ _ _ _ EQ). fold nl. pose proof (ns_bs _ _ _ _ _ _ _ _ _ _ _ _ _ _ _ _ _ _ ST). lia. }
    assert (EE : E = e2_sqpart e V).
    { unfold non_shape in EN'. destruct (invert_table _ _ _ _ _ _ _ _) as [it|]; [|discriminate EN']. unfold obind at 1 in EN'. destruct (negb (fst it)); [discriminate EN'|]. destruct (ns_coords _ _ _ _ _ _ _ _ _ _ _ _ _ _) as [c1|]; [|discriminate EN']. unfold obind at 1 in EN'. destruct (ns_verify _ _ _ _ _ _ _ _ _ _ _ _ _ _ _ _) as [o1|]; [|discriminate EN']. unfold obind at 1 in EN'.
      unfold set_linear in EN'. rewrite LEq in EN'. destruct (linear_loop _ _ _ _ _ _ _) as [c2|]; [|discriminate EN']. cbn [obind fst snd] in EN'. injection EN' as _ <- _. reflexivity. }
    subst E. split; [exact SP|]. intros CE.
    destruct (answer (e2_k e) p (e2_sqf e) (e2_sqpart e) (e2_xg e) (e2_al e) m squ (e2_lam e) nv (nv - nl) lin eqs v old M (pfs G) _ _ ST V (S w) LU NS Q SP) as (ok & cs' & ER' & PA & GL & _); [intros q Hq _; apply CE; [exact Hq|reflexivity]|apply AL|].
    unfold fglm_all in ER'. cbv zeta in ER'. fold sq in ER'. rewrite EA in ER'. injection ER' as _ <-. split; [exact PA|exact GL].
Qed.
