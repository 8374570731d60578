(** The answers over a prime field without any hypothesis on the random vectors: proofs. *)
From Coq Require Import ZArith NArith Arith List Bool Lia Sorted Znumtheory.
From Verif Require Import ModInvModel LinSpec MonoSpec MonoSpecProofs MonoModel MonoCmpProofs HilbSpec HilbModel HilbLoopProofs HilbProps GbSpec GbProofs GbIdeal F4Model UpdProps F4Rows RoundProofs FinalProofs F4Props.
From Verif Require Import FpSpec FglmSpec NmodModel FpProofs BmModel BmProofs BmProps FglmModel MatVecProofs SeqProofs HankelProofs ShapeProofs ParamProofs FglmCore FglmProps BuildModel StairProofs BuildProofs BasisProofs LinTabProofs BuildProps NfModel NfProps StepSpec StepModel StepProofs StepProps RexFp NsSpec NsModel NsProofs NsRun NsStep NsProps.
Import ListNotations.
Open Scope nat_scope.

Definition answer_spec (nv : nat) (p : Z) (G : pf -> Prop) (a : NsModel.answer) : Prop :=
  match a with
  | AEmpty => unit_ideal nv p G
  | APositive => ~ unit_ideal nv p G /\ exists k, free_variable nv p G k
  | AParam E cs => ~ unit_ideal nv p G /\ exists l, quotient_basis nv p G l /\ (length E = S (length l) -> parametrises nv p G (length l) E cs /\ squarefree p E /\ generates_last nv p G E)
  | AFail | ASquares => ~ unit_ideal nv p G /\ exists l, quotient_basis nv p G l
  end.
Lemma basis_answer_cases c e fuel round G a : cfg_ok c -> o_nev (c_o c) = 0 -> o_mo (c_o c) <> 1 -> 1 <= o_nv (c_o c) -> c_p c <> 2%Z -> env2_ok (c_p c) e ->
  reduced_gb (o_nv (c_o c)) (c_p c) G -> small_basis (o_nv (c_o c)) G -> basis_answer c e fuel round G = F4Model.Ok a -> answer_spec (o_nv (c_o c)) (c_p c) (pfs G) a.
Proof.
  intros CK E0 E1 NV N2 (SQ & PC & XG & LM & AL & HE) HG [SZ FW] RUN0. set (nv := o_nv (c_o c)) in *. set (p := c_p c) in *. pose proof (ck_p c CK) as Hp. fold p in Hp. assert (P2 : (2 <= p)%Z) by (destruct Hp; lia).
  unfold basis_answer in RUN0. fold nv p in RUN0. change (lead_monos G) with (leads G) in RUN0.
  destruct (forallb fits (leads G)) eqn:EF; [|discriminate RUN0]. cbn [when rbind] in RUN0. destruct (single_constant nv (leads G)) eqn:ES; [injection RUN0 as <-; exact (single_yes nv p G NV HG ES)|].
  destruct (table_ok nv p G NV P2 HG) as (lv & eqs & ET & LL & LV & EQ). rewrite ET in RUN0. cbn [of_opt rbind] in RUN0.
  assert (LK : lms_ok nv (leads G)). { apply Forall_forall. intros l Hl. split; [apply (leads_len nv p G P2 HG l Hl)|]. intros i. rewrite forallb_forall in EF. specialize (EF l Hl). unfold fits in EF. apply N.ltb_lt in EF. pose proof (ex_le_mdeg l i). unfold i32_max. change (2 ^ 16)%N with 65536%N in EF. lia. }
  pose proof (has_dimension_zero_ok nv (leads G) NV (lms_ok_len _ _ LK) (leads_minimal nv p G P2 HG) (single_no nv p G NV Hp HG ES)) as DZ.
  pose proof (not_unit nv p G NV Hp HG ES) as NU.
  destruct (has_dimension_zero nv (leads G)) eqn:EZ.
  2: { injection RUN0 as <-. split; [exact NU|]. destruct (free_power nv (leads G) (leads_len nv p G P2 HG)) as (k & Hk & St); [intros FM; apply DZ in FM; discriminate|]. exists k. apply (free_ok nv p G NV Hp HG k Hk St). }
  destruct (basis_run nv (leads G) NV LK (proj1 DZ eq_refl) FW (one_standard nv p G NV Hp HG ES)) as (lmb & BS & BI & D1 & DL & RUN).
  destruct (RUN fuel) as [ER|[ER HF]]; rewrite ER in RUN0; [|discriminate RUN0]. assert (SB : length (border nv lmb) <= length lmb) by apply filter_len_le.
  pose proof (basis_ok nv p G NV Hp HG lmb BS BI) as QB.
  assert (BAD : answer_spec nv p (pfs G) AFail) by (split; [exact NU|]; exists lmb; exact QB).
  destruct (C59_matrix nv p G lmb (mono_nf c fuel G) (e2_unstable e) NV P2 HG BS BI D1 (mono_nf_contract c fuel G CK E0 E1 HG) SZ ltac:(lia) ltac:(nia)) as [(_ & K)|[(_ & _ & K1 & K)|(_ & m & M & K & EC & R & MM)]]; rewrite K in RUN0; cbn [of_opt rbind] in RUN0; [injection RUN0 as <-; exact BAD|discriminate RUN0|].
  destruct (HE (length lmb)) as (V1 & V2 & V3). set (v := e2_v e (length lmb)) in *. set (old := e2_old e (length lmb)) in *.
  assert (HV : holds_vec p (length lmb) v (fun j => nth j v 0%Z)). { split; [exact V1|]. intros i Hi. symmetry. apply Z.mod_small. apply V2. apply nth_In. lia. }
  set (lin := fun k => negb (nth k lv 0 =? 0)) in *. set (nl := length (filter (lead_var nv (leads G)) (seq 0 nv))) in *. set (squ := squvars lmb) in *.
  set (sq := square_entry (e2_k e) p m squ nv lin v old).
  destruct (run_fglm nv p G NV Hp HG lmb (e2_k e) (e2_sqf e) (e2_sqpart e) sq m M v old lv eqs BS BI D1 N2 SQ EC R MM LV EQ HV V3) as (r & Er & SR). fold lin nl in Er.
  destruct (fglm_all _ _ _ _ _ _ _ _ _ _ _ _ _ _ _) as [ra|] eqn:EA in RUN0; [|discriminate RUN0]. cbn [of_opt rbind] in RUN0. unfold fglm_all in EA. cbv zeta in EA. fold sq in EA.
  assert (EA' : fglm (e2_k e) p (e2_sqf e) (e2_sqpart e) m sq nv (nv - nl) lin eqs v old = Some r) by exact Er.
  assert (FIN : forall E cs, (length E = S (length lmb) -> parametrises nv p (pfs G) (length lmb) E cs /\ squarefree p E /\ generates_last nv p (pfs G) E) -> forall b, F4Model.Ok (if b : bool then ASquares else AParam E cs) = F4Model.Ok a -> answer_spec nv p (pfs G) a).
  { intros E cs H [|] Ea; injection Ea as <-; [exact BAD|]. split; [exact NU|]. exists lmb. split; [exact QB|exact H]. }
  destruct r as [elim cs0| | | |].
  - rewrite EA' in EA. cbn [obind] in EA. injection EA as <-. cbn [answer_of] in RUN0. cbn [of_opt] in RUN0. refine (FIN elim cs0 _ _ RUN0). intros _. exact SR.
  - rewrite EA' in EA. cbn [obind] in EA. injection EA as <-. discriminate RUN0.
  - destruct SR.
  - rewrite EA' in EA. cbn [obind] in EA. injection EA as <-. discriminate RUN0.
  - assert (PU : (p < 1518500213)%Z). { destruct (Z_lt_le_dec p 1518500213) as [|PU]; [assumption|]. unfold fglm in EA'. rewrite (proj2 (Z.leb_le _ _) PU) in EA'. discriminate EA'. }
    rewrite EA' in EA. unfold obind at 1 in EA. destruct (gen_res _ _ _ _ _ _ _ _) as [res|] eqn:EG in EA; [|discriminate EA]. unfold obind at 1 in EA. destruct (gen_pts _ _ _) as [pts|] eqn:EP in EA; [|discriminate EA]. unfold obind at 1 in EA. destruct (compute_minpoly _ _ _ _ _) as [Be|] eqn:EB in EA; [|discriminate EA]. unfold obind at 1 in EA.
    destruct (non_shape _ _ _ _ _ _ _ _ _ _ _ _ _) as [rn|] eqn:EN in EA; [|discriminate EA]. cbn [obind] in EA. injection EA as <-. destruct rn as [|ok E cs]; cbn [answer_of] in RUN0; [injection RUN0 as <-; exact BAD|].
    destruct ok; [|injection RUN0 as <-; exact BAD]. cbn [of_opt] in RUN0. refine (FIN E cs _ _ RUN0). intros LE. exfalso.
    assert (ND : ndeg (snd Be) <> Z.of_nat (length lmb)).
    { intros ND. unfold fglm in EA'. rewrite (proj2 (Z.leb_gt _ _)) in EA' by exact PU. destruct (_ || _) in EA'; [discriminate EA'|]. rewrite EG in EA'. unfold obind at 1 in EA'. rewrite EP in EA'. unfold obind at 1 in EA'. rewrite EB in EA'. unfold obind at 1 in EA'. rewrite EC, ND, Z.eqb_refl in EA'. cbn [negb] in EA'.
      destruct (length eqs =? nv).
      - destruct (negb _) in EA'; [discriminate EA'|]. destruct (nth_error _ _) in EA'; [|discriminate EA']. cbn [obind] in EA'. destruct (linear_loop _ _ _ _ _ _ _) in EA'; [|discriminate EA']. discriminate EA'.
      - destruct (invert_hankel _ _ _) as [h|] in EA'; [|discriminate EA']. cbn [obind] in EA'. destruct h as [| |Z1 Z2]; try discriminate EA'. destruct (coords_loop _ _ _ _ _ _ _ _ _ _ _ _ _) in EA'; [|discriminate EA']. cbn [obind] in EA'. destruct (linear_loop _ _ _ _ _ _ _) in EA'; [|discriminate EA']. discriminate EA'. }
    unfold non_shape in EN. destruct (invert_table _ _ _ _ _ _ _ _) as [it|]; [|discriminate EN]. unfold obind at 1 in EN. destruct (negb (fst it)); [discriminate EN|]. destruct (ns_coords _ _ _ _ _ _ _ _ _ _ _ _ _ _) as [c1|]; [|discriminate EN]. unfold obind at 1 in EN. destruct (ns_verify _ _ _ _ _ _ _ _ _ _ _ _ _ _ _ _) as [o1|]; [|discriminate EN]. unfold obind at 1 in EN.
    unfold set_linear in EN. destruct (length eqs =? nv).
    + destruct (nth_error _ _) as [c0|] in EN; [|discriminate EN]. cbn [obind] in EN. destruct (linear_loop _ _ _ _ _ _ _) as [c2|] in EN; [|discriminate EN]. cbn [obind fst snd] in EN. injection EN as _ <- _. cbn [length] in LE. assert (L1 : length lmb = 1) by lia.
      destruct (run_one nv p G NV Hp HG lmb (e2_k e) (e2_sqf e) (e2_sqpart e) sq m M v old lv eqs BS BI D1 N2 SQ EC R MM LV EQ HV V3 L1 PU) as (x & y & Ex & _). fold lin nl in Ex. congruence.
    + destruct (linear_loop _ _ _ _ _ _ _) as [c2|] in EN; [|discriminate EN]. cbn [obind fst snd] in EN. injection EN as _ <- _. apply ND. unfold ndeg. rewrite LE. lia.
Qed.
Lemma answer_spec_same nv p (G G' : pf -> Prop) a : same_ideal nv p G G' -> answer_spec nv p G' a -> answer_spec nv p G a.
Proof.
  intros SI. assert (U : unit_ideal nv p G <-> unit_ideal nv p G') by (apply SI). assert (Q : forall l, quotient_basis nv p G' l -> quotient_basis nv p G l).
  { intros l (A & B & C). split; [exact A|]. split; [intros c Hc; apply B; apply SI; exact Hc|]. intros m Hm. destruct (C m Hm) as (c & Hc). exists c. apply SI. exact Hc. }
  destruct a as [| |E cs| |]; cbn [answer_spec].
  - apply U.
  - intros (A & k & K & B). split; [rewrite U; exact A|]. exists k. split; [exact K|]. intros Q' HQ. apply B. apply SI. exact HQ.
  - intros (A & l & B & C). split; [rewrite U; exact A|]. exists l. split; [apply Q; exact B|]. intros LE. destruct (C LE) as (P & SF & GE).
    split; [|split; [exact SF|intros Q'; rewrite <- (GE Q'); apply SI]]. destruct P as (P1 & P3 & P4 & P5 & P6 & P7). split; [exact P1|]. split; [exact P3|]. split; [exact P4|]. split; [apply SI; exact P5|]. split; [exact P6|]. intros k Hk. destruct (P7 k Hk) as (Q1 & Q2 & Q3 & Q4). split; [exact Q1|]. split; [exact Q2|]. split; [exact Q3|]. apply SI. exact Q4.
  - intros (A & l & B). split; [rewrite U; exact A|]. exists l. apply Q. exact B.
  - intros (A & l & B). split; [rewrite U; exact A|]. exists l. apply Q. exact B.
Qed.
Lemma field_answer_cases c e fuel round F a : ns_input c e F -> field_answer c e fuel round F = F4Model.Ok a -> answer_spec (o_nv (c_o c)) (c_p c) (pfs F) a.
Proof.
  intros [CK E0 E1 NV N2 EO HF SM] RUN. unfold field_answer in RUN. destruct (core_f4 c true fuel F) as [G| | |] eqn:EG; try discriminate RUN. cbn [rbind] in RUN. destruct (f4_reduced_gb c fuel F G CK E0 E1 HF EG) as [SI RG].
  apply (answer_spec_same _ _ (pfs F) (pfs G) a SI). exact (basis_answer_cases c e fuel round G a CK E0 E1 NV N2 EO RG (SM fuel G EG) RUN).
Qed.
