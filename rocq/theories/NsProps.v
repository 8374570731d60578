(** C77: the change of order when the elimination polynomial is not squarefree of full degree: what the answer parametrises, which solutions it
    contains, when it contains all of them, and that otherwise solutions are lost without a warning. *)
From Coq Require Import ZArith NArith Arith List Bool Lia Sorted Znumtheory.
From Verif Require Import ModInvModel LinSpec MonoSpec MonoSpecProofs MonoModel MonoCmpProofs HilbSpec HilbModel GbSpec GbProofs GbIdeal F4Model UpdProps F4Rows RoundProofs FinalProofs F4Props PointSpec PointProofs.
From Verif Require Import FpSpec FglmSpec NmodModel FpProofs BmProps FglmModel FglmProps BasisProofs BuildModel StepSpec StepModel StepProofs StepProps BuildProps RexFp NsSpec NsModel NsProofs NsPoints NsRun NsStep.
Import ListNotations.
Open Scope nat_scope.

(** The change of order. V is the minimal polynomial of the last variable modulo the ideal of G, V = Q E with E the squarefree part, and the start
    vector is lucky. When modulo the colon ideal (G : Q(x_n)) every variable is a polynomial in the last one, the answer is the elimination
    polynomial E with a parametrisation of that colon ideal, and the verification accepts it for all but unlucky random numbers. *)
Theorem C77_answer : forall k p sqf sqpart xg al m squ lam nv bs lin eqs v old M G b v0, ns_setting p sqf sqpart xg al m squ lam nv bs lin eqs v old M G b v0 ->
  forall V w, lucky p nv G (m_ncols m) M v0 V w -> ~ (w = m_ncols m /\ squarefree p V) -> forall Q, squarefree_part p V Q (sqpart V) ->
  coords_exist nv p (colon nv p G Q) lin -> 2 <= al (length (sqpart V) - 1) ->
  exists ok cs, fglm_all k p sqf sqpart xg al m squ lam nv bs lin eqs v old = Some (NonShape (NsParam ok (sqpart V) cs)) /\
    parametrises nv p (colon nv p G Q) (length (sqpart V) - 1) (sqpart V) cs /\ generates_last nv p (colon nv p G Q) (sqpart V) /\
    (lam_ok p nv lin squ lam (sqpart V) cs -> ok = true).
Proof. intros. eapply answer; eassumption. Qed.
Print Assumptions C77_answer.

(** From the polynomials to the answer over a prime field: as for C60, with the contracts of FLINT's functions used in this branch. *)
Record ns_input (c : config) (e : env2) (F : list (list (Z * mono))) : Prop := {
  ni_c : cfg_ok c; ni_nev : o_nev (c_o c) = 0; ni_mo : o_mo (c_o c) <> 1; ni_nv : 1 <= o_nv (c_o c); ni_p : c_p c <> 2%Z;
  ni_e : env2_ok (c_p c) e; ni_F : Forall (sorted_poly (o_nv (c_o c)) (o_lt (c_o c)) (c_p c)) F;
  ni_small : forall fuel G, core_f4 c true fuel F = F4Model.Ok G -> small_basis (o_nv (c_o c)) G }.
(** V generates the polynomials of the ideal in the last variable, has degree at least 2, and is the minimal polynomial of the sequence of the start vector
    in the basis of the quotient that the run uses. *)
Definition lucky_run (c : config) (e : env2) (fuel : nat) (F : list (list (Z * mono))) (V : list Z) : Prop :=
  (exists w, 2 <= w /\ monic_of_degree (c_p c) V w) /\ generates_last (o_nv (c_o c)) (c_p c) (pfs F) V /\
  forall G l, core_f4 c true fuel F = F4Model.Ok G -> monomial_basis fuel (o_nv (c_o c)) (lead_monos G) = HilbModel.Ok (Some l) ->
  forall M, mult_matrix (o_nv (c_o c)) (c_p c) (pfs F) (length l) (fun i => cf [(1%Z, nth i l [])]) M ->
    minimal_polynomial (c_p c) V (fun i => mpow (length l) M (fun j => nth j (e2_v e (length l)) 0%Z) i 0).

Theorem C77_field : forall c e fuel round F E cs V, ns_input c e F -> field_answer c e fuel round F = F4Model.Ok (AParam E cs) -> lucky_run c e fuel F V ->
  let nv := o_nv (c_o c) in let p := c_p c in
  exists Q, squarefree_part p V Q E /\
    (coords_exist nv p (colon nv p (pfs F) Q) (fun _ => false) ->
     parametrises nv p (colon nv p (pfs F) Q) (length E - 1) E cs /\ generates_last nv p (colon nv p (pfs F) Q) E).
Proof.
  intros c e fuel round F E cs V [CK E0 E1 NV N2 EO HF SM] RUN ((w & W2 & MV) & GV & MIN) nv p. unfold field_answer in RUN. destruct (core_f4 c true fuel F) as [G| | |] eqn:EG; try discriminate RUN. cbn [rbind] in RUN.
  destruct (f4_reduced_gb c fuel F G CK E0 E1 HF EG) as [SI RG]. fold nv p in SI.
  destruct (basis_answer_ok c e fuel round G E cs CK E0 E1 NV N2 EO RG (SM fuel G EG) RUN) as (l & EB & QB & H). fold nv p in H.
  assert (SI' : forall f, ideal nv p (pfs F) f <-> ideal nv p (pfs G) f) by (intros f; split; apply SI).
  assert (SC : forall Q f, ideal nv p (colon nv p (pfs G) Q) f <-> ideal nv p (colon nv p (pfs F) Q) f).
  { intros Q f. rewrite (J_iff nv p (pfs G) Q NV), (J_iff nv p (pfs F) Q NV). unfold colon. symmetry. apply SI'. }
  destruct (H V w MV W2) as (Q & SP & K).
  - intros g. rewrite <- (SI' (uni_at nv (nv - 1) g)). apply GV.
  - intros M MM. apply (MIN G l eq_refl EB M). split; [apply MM|]. intros i Hi. apply SI'. apply MM. exact Hi.
  - exists Q. split; [exact SP|]. intros CE. destruct K as [PA GL].
    + intros q Hq Lq. destruct (CE q Hq Lq) as (x & Hx). exists x. apply SC. exact Hx.
    + split; [|intros g; rewrite <- SC; apply GL]. destruct PA as (P1 & P2 & P3 & P4 & P5 & P6). split; [exact P1|]. split; [exact P2|]. split; [exact P3|]. split; [apply SC; exact P4|]. split; [exact P5|]. intros k Hk. destruct (P6 k Hk) as (A & B & C & D). split; [exact A|]. split; [exact B|]. split; [exact C|]. apply SC. exact D.
Qed.
Print Assumptions C77_field.

(** What this says about solutions: in every commutative ring with p = 0 all points of the answer are solutions of the input; when there are no
    zero divisors the last coordinate of every solution is a root of E, and a solution whose last coordinate is not a root of Q, hence a simple
    root of V, is a point of the answer. *)
Theorem C77_points : forall c e fuel round F E cs V, ns_input c e F -> field_answer c e fuel round F = F4Model.Ok (AParam E cs) -> lucky_run c e fuel F V ->
  let nv := o_nv (c_o c) in let p := c_p c in
  exists Q, squarefree_part p V Q E /\ (coords_exist nv p (colon nv p (pfs F) Q) (fun _ => false) ->
  forall K k0 k1 add mul sub opp, ring_mod K k0 k1 add mul sub opp p ->
    (forall a, point_of K k0 k1 add mul opp nv E cs a -> zero_of K k0 k1 add mul opp F a) /\
    (k1 <> k0 -> (forall x y, mul x y = k0 -> x = k0 \/ y = k0) -> forall a, zero_of K k0 k1 add mul opp F a ->
       uval K k0 k1 add mul opp (a (nv - 1)) E = k0 /\ (uval K k0 k1 add mul opp (a (nv - 1)) Q <> k0 -> point_of K k0 k1 add mul opp nv E cs a))).
Proof.
  intros c e fuel round F E cs V NI RUN LU nv p. destruct (C77_field c e fuel round F E cs V NI RUN LU) as (Q & SP & H). exists Q. split; [exact SP|]. intros CE. destruct (H CE) as [PA GE]. clear H. fold nv p in PA, GE, SP.
  destruct NI as [CK E0 E1 NV N2 EO HF SM]. pose proof (sorted_len _ _ _ F HF) as LF. destruct LU as (_ & GV & _). intros K k0 k1 add mul sub opp RM. split.
  - intros a. apply (point_zero nv p F Q E cs _ NV LF PA GE K k0 k1 add mul sub opp RM a).
  - intros N1 DO a Ha. split; [apply (zero_root nv p F V Q E NV LF GV SP K k0 k1 add mul sub opp RM DO a N1 Ha)|]. apply (zero_found nv p F V Q E cs _ NV LF PA GV SP K k0 k1 add mul sub opp RM DO a Ha).
Qed.
Print Assumptions C77_points.

(** When every variable is a polynomial in the last one modulo the ideal of the input itself, the points of the answer are exactly the solutions. *)
Theorem C77_complete : forall c e fuel round F E cs V, ns_input c e F -> field_answer c e fuel round F = F4Model.Ok (AParam E cs) -> lucky_run c e fuel F V ->
  let nv := o_nv (c_o c) in let p := c_p c in coords_exist nv p (pfs F) (fun _ => false) ->
  forall K k0 k1 add mul sub opp, ring_mod K k0 k1 add mul sub opp p -> k1 <> k0 -> (forall x y, mul x y = k0 -> x = k0 \/ y = k0) ->
    forall a, zero_of K k0 k1 add mul opp F a <-> point_of K k0 k1 add mul opp nv E cs a.
Proof.
  intros c e fuel round F E cs V NI RUN LU nv p CI. destruct (C77_field c e fuel round F E cs V NI RUN LU) as (Q & SP & H). fold nv p in H, SP. assert (NV : 1 <= nv) by apply NI. destruct H as [PA GE].
  { intros q Hq Lq. destruct (CI q Hq Lq) as (x & Hx). exists x. apply ideal_gen. apply (colon_incl nv p (pfs F) Q NV). exact Hx. }
  destruct NI as [CK E0 E1 _ N2 EO HF SM]. pose proof (sorted_len _ _ _ F HF) as LF. destruct LU as (_ & GV & _). intros K k0 k1 add mul sub opp RM N1 DO a. split.
  - intros Ha. apply (zero_all nv p F V Q E cs _ NV LF PA GE GV SP K k0 k1 add mul sub opp RM DO a N1); [|exact Ha]. intros k Hk. apply CI; [exact Hk|reflexivity].
  - apply (point_zero nv p F Q E cs _ NV LF PA GE K k0 k1 add mul sub opp RM a).
Qed.
Print Assumptions C77_complete.
