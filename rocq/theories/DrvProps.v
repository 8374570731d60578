(** Property C78: from the input system to the answer over a prime field, through all restarts. *)
From Coq Require Import ZArith NArith Arith String List Bool Lia Znumtheory Ring_theory Ring InitialRing.
From Verif Require Import LinSpec MonoSpec MonoModel MonoCmpProofs GbSpec GbProofs F4Model RoundProofs FpSpec FglmSpec BmProps StepSpec StepProofs StepProps ParamIdeal PointSpec PointProofs ModInvModel.
From Verif Require Import InputSpec InputModel InputProofs InputRunProofs InputProps ImportModel ImportProps NsSpec NsModel NsStep NsProps DrvModel DrvShape DrvProofs.
Import ListNotations.
Open Scope Z_scope.
Notation length := List.length.

(** The input: names, polynomials as given, a prime larger than the number of variables. *)
Record drv_input (p : Z) (g0 : gens) (names : list string) (s : isys) : Prop := {
  di_prime : prime p; di_char : field_char g0 = p; di_n : (0 < nvars g0)%nat; di_small : Z.of_nat (nvars g0) < p; di_fresh : fresh g0; di_rep : rep g0 names s; di_sys : sys_ok p (nvars g0) s }.
(** The basis computed at the last attempt has less than 2^31 terms and monomials below the staircase (as for C60 and C77). *)
Definition small_last (cf : nat -> config) (sorter : nat -> list mono -> list nat) (g : gens) : Prop :=
  forall F fuel G, engine_input sorter g = Some (1, F) -> core_f4 (cf (nvars g)) true fuel F = F4Model.Ok G -> small_basis (nvars g) G.
(** the point with the given coordinates *)
Definition at_ {K} (k0 : K) (y : list K) : nat -> K := fun i => nth i y k0.
Lemma at_seq {K} (k0 : K) y : map (at_ k0 y) (seq 0 (length y)) = y.
Proof.
  unfold at_. induction y as [|a y IH]; [reflexivity|]. cbn [length seq map nth]. f_equal. rewrite <- seq_shift, map_map. exact IH.
Qed.

Section Run.
Variables (p : Z) (cf : nat -> config) (env : nat -> env2) (fuel : nat) (sorter : nat -> list mono -> list nat) (gh : Z) (k : nat) (g0 : gens) (names : list string) (s : isys) (rnd : list Z) (a : answer) (g : gens).
Hypothesis D : drv_ok p cf env sorter.
Hypothesis I0 : drv_input p g0 names s.
Hypothesis RUN : solve cf env fuel sorter gh k g0 rnd = Some (Answered a, g).
Lemma run_split : exists os F j round nm sg, attempts gh os g0 rnd = Some (true, g) /\ engine_input sorter g = Some (1, F) /\ field_answer (cf (nvars g)) (env j) fuel round F = F4Model.Ok a /\
  rep g nm sg /\ field_char g = p /\ (1 <= nvars g)%nat /\ sys_ok p (nvars g) sg.
Proof.
  destruct I0 as [PR FC N0 SM FR RP SO]. pose proof (do_p _ _ _ _ D) as P. pose proof (sys_ok_wf _ _ _ SO) as WF. assert (LN : length names = nvars g0) by apply RP.
  assert (GD : good p names s (nvars g0) g0). { split; [rewrite <- FC; apply fresh_ok; assumption|]. destruct FR as (_ & L & _). lia. }
  destruct (drive_ok p names s (nvars g0) cf env fuel sorter gh k 0 (-1) g0 rnd a g PR P SM N0 LN WF GD RUN) as (os & F & j & r & A & G' & EF & EA & _).
  destruct (good_sys p names s (nvars g0) g N0 SO G') as (nm & sg & R & C & V & S'). exists os, F, j, r, nm, sg. repeat (split; [assumption|]). exact S'.
Qed.
(** a coefficient that is not 0 modulo p is invertible where p = 0 *)
Lemma unit_inv K k0 k1 add mul sub opp v : ring_mod K k0 k1 add mul sub opp p -> ~ (p | v) -> exists w, mul w (kz K k0 k1 add mul opp v) = k1.
Proof.
  intros [RK RP] ND. destruct I0 as [PR _ _ _ _ _ _]. destruct (Zis_gcd_bezout p v 1) as [x y E].
  - pose proof (prime_rel_prime p PR v ND) as R. exact R.
  - exists (kz K k0 k1 add mul opp y). rewrite <- (kz_mul K k0 k1 add mul sub opp RK), <- (kz_1 K k0 k1 add mul sub opp RK). apply (kz_eqp K k0 k1 add mul sub opp p RK RP). exists (- x). lia.
Qed.
End Run.

(** The polynomials solved at the last attempt are a sorted reduced form of a system with the same solutions, up to the change of coordinates that is undone:
    for every commutative ring with p = 0, every common zero of the polynomials gives a solution of the input, and every solution comes from exactly one zero. *)
Theorem C78_reduces : forall p cf env fuel sorter gh k g0 names s rnd a g, drv_ok p cf env sorter -> drv_input p g0 names s -> solve cf env fuel sorter gh k g0 rnd = Some (Answered a, g) ->
  exists F j round, engine_input sorter g = Some (1, F) /\ field_answer (cf (nvars g)) (env j) fuel round F = F4Model.Ok a /\ Forall (sorted_poly (nvars g) (o_lt (c_o (cf (nvars g)))) p) F /\
  forall K k0 k1 add mul sub opp, ring_mod K k0 k1 add mul sub opp p -> let phi := fun c : coef => kz K k0 k1 add mul opp (fst c) in
    (forall y, length y = nvars g -> zero_of K k0 k1 add mul opp F (at_ k0 y) -> exists x, reported g y = Some x /\ length x = nvars g0 /\ solves k0 k1 add mul phi s x) /\
    (forall x, length x = nvars g0 -> solves k0 k1 add mul phi s x -> exists y, length y = nvars g /\ zero_of K k0 k1 add mul opp F (at_ k0 y) /\ reported g y = Some x /\
       forall y', length y' = nvars g -> zero_of K k0 k1 add mul opp F (at_ k0 y') -> reported g y' = Some x -> y' = y).
Proof.
  intros p cf env fuel sorter gh k g0 names s rnd a g D I0 RUN. destruct (run_split p cf env fuel sorter gh k g0 names s rnd a g D I0 RUN) as (os & F & j & r & nm & sg & A & EF & EA & R & FC & NV & SO).
  exists F, j, r. split; [exact EF|]. split; [exact EA|]. split; [exact (engine_sorted p cf env sorter g nm sg F D R FC NV SO EF)|]. intros K k0 k1 add mul sub opp RM phi.
  assert (ZE : forall y, length y = nvars g -> (zero_of K k0 k1 add mul opp F (at_ k0 y) <-> solves k0 k1 add mul phi sg y)).
  { intros y Ly. rewrite (engine_zero p cf env sorter g nm sg F K k0 k1 add mul sub opp (at_ k0 y) D R FC NV SO EF RM). rewrite <- Ly, at_seq. reflexivity. }
  assert (INV : forall v, unit_coef (field_char g0) v -> exists w, mul w (phi (v, 1)) = k1).
  { intros v U. apply (unit_inv p g0 names s I0 K k0 k1 add mul sub opp v RM). rewrite (di_char _ _ _ _ I0) in U. apply (unit_form p v (do_p _ _ _ _ D) U). }
  destruct (C39_solutions k0 k1 add mul sub opp phi gh os g0 names s rnd g nm sg (proj1 RM) INV (di_n _ _ _ _ I0) (di_fresh _ _ _ _ I0) (di_rep _ _ _ _ I0) A R) as [H1 H2]. split.
  - intros y Ly Hy. apply H1; [exact Ly|]. apply ZE; assumption.
  - intros x Lx Hx. destruct (H2 x Lx Hx) as (y & Ly & Sy & Ry & U). exists y. split; [exact Ly|]. split; [apply ZE; assumption|]. split; [exact Ry|]. intros y' Ly' Hy'. apply U; [exact Ly'|]. apply ZE; assumption.
Qed.
Print Assumptions C78_reduces.

Lemma drv_ns p cf env fuel sorter gh k g0 names s rnd a g F j : drv_ok p cf env sorter -> drv_input p g0 names s -> solve cf env fuel sorter gh k g0 rnd = Some (Answered a, g) -> small_last cf sorter g ->
  engine_input sorter g = Some (1, F) -> Forall (sorted_poly (nvars g) (o_lt (c_o (cf (nvars g)))) p) F -> ns_input (cf (nvars g)) (env j) F /\ o_nv (c_o (cf (nvars g))) = nvars g /\ c_p (cf (nvars g)) = p /\ (1 <= nvars g)%nat.
Proof.
  intros D I0 RUN SM EF SP. destruct (run_split p cf env fuel sorter gh k g0 names s rnd a g D I0 RUN) as (_ & _ & _ & _ & _ & _ & _ & _ & _ & _ & _ & NV & _).
  destruct (do_cfg _ _ _ _ D (nvars g) NV) as (CK & EN & E0 & E1 & EP). split; [|auto]. pose proof (do_p _ _ _ _ D) as P. constructor; rewrite ?EN, ?EP; try assumption; try lia.
  - exact (do_env _ _ _ _ D j).
  - intros f G EG. exact (SM F f G EF EG).
Qed.

(** "No solution": the input has none in any commutative ring with p = 0 and 1 <> 0, hence in no extension of the field. *)
Theorem C78_empty : forall p cf env fuel sorter gh k g0 names s rnd g, drv_ok p cf env sorter -> drv_input p g0 names s -> small_last cf sorter g ->
  solve cf env fuel sorter gh k g0 rnd = Some (Answered AEmpty, g) ->
  forall K k0 k1 add mul sub opp, ring_mod K k0 k1 add mul sub opp p -> k1 <> k0 -> forall x, length x = nvars g0 -> ~ solves k0 k1 add mul (fun c : coef => kz K k0 k1 add mul opp (fst c)) s x.
Proof.
  intros p cf env fuel sorter gh k g0 names s rnd g D I0 SM RUN K k0 k1 add mul sub opp RM N x Lx Sx. destruct (C78_reduces p cf env fuel sorter gh k g0 names s rnd _ g D I0 RUN) as (F & j & r & EF & EA & SP & H).
  destruct (drv_ns p cf env fuel sorter gh k g0 names s rnd _ g F j D I0 RUN SM EF SP) as (NI & EN & EP & NV). destruct (H K k0 k1 add mul sub opp RM) as [_ H2]. destruct (H2 x Lx Sx) as (y & _ & Zy & _).
  pose proof (field_answer_cases _ _ fuel r F AEmpty NI EA) as U. cbn [answer_spec] in U. rewrite EN, EP in U. apply N. destruct RM as [RK RP].
  exact (unit_no_zero K k0 k1 add mul sub opp p RK RP (nvars g) F (at_ k0 y) (sorted_len _ _ _ F SP) U Zy).
Qed.
Print Assumptions C78_empty.

(** "Infinitely many solutions": the ideal of the polynomials of the last attempt is not everything, and contains no nonzero polynomial in some single variable. *)
Theorem C78_positive : forall p cf env fuel sorter gh k g0 names s rnd g, drv_ok p cf env sorter -> drv_input p g0 names s -> small_last cf sorter g ->
  solve cf env fuel sorter gh k g0 rnd = Some (Answered APositive, g) ->
  exists F, engine_input sorter g = Some (1, F) /\ ~ unit_ideal (nvars g) p (pfs F) /\ exists i, free_variable (nvars g) p (pfs F) i.
Proof.
  intros p cf env fuel sorter gh k g0 names s rnd g D I0 SM RUN. destruct (C78_reduces p cf env fuel sorter gh k g0 names s rnd _ g D I0 RUN) as (F & j & r & EF & EA & SP & _).
  destruct (drv_ns p cf env fuel sorter gh k g0 names s rnd _ g F j D I0 RUN SM EF SP) as (NI & EN & EP & NV). pose proof (field_answer_cases _ _ fuel r F APositive NI EA) as U. cbn [answer_spec] in U. rewrite EN, EP in U.
  exists F. split; [exact EF|exact U].
Qed.
Print Assumptions C78_positive.

(** A parametrisation whose eliminating polynomial has the degree of the quotient: whatever the restarts and the random choices, its points, with the change of
    coordinates undone, are exactly the solutions of the input, in every commutative ring with p = 0. *)
Theorem C78_shape : forall p cf env fuel sorter gh k g0 names s rnd E cs g, drv_ok p cf env sorter -> drv_input p g0 names s -> small_last cf sorter g ->
  solve cf env fuel sorter gh k g0 rnd = Some (Answered (AParam E cs), g) ->
  exists F l, engine_input sorter g = Some (1, F) /\ quotient_basis (nvars g) p (pfs F) l /\ (length E = S (length l) -> squarefree p E /\
    forall K k0 k1 add mul sub opp, ring_mod K k0 k1 add mul sub opp p -> forall x, length x = nvars g0 ->
      (solves k0 k1 add mul (fun c : coef => kz K k0 k1 add mul opp (fst c)) s x <->
       exists y, length y = nvars g /\ point_of K k0 k1 add mul opp (nvars g) E cs (at_ k0 y) /\ reported g y = Some x)).
Proof.
  intros p cf env fuel sorter gh k g0 names s rnd E cs g D I0 SM RUN. destruct (C78_reduces p cf env fuel sorter gh k g0 names s rnd _ g D I0 RUN) as (F & j & r & EF & EA & SP & H).
  destruct (drv_ns p cf env fuel sorter gh k g0 names s rnd _ g F j D I0 RUN SM EF SP) as (NI & EN & EP & NV). pose proof (field_answer_cases _ _ fuel r F (AParam E cs) NI EA) as (_ & l & QB & U). rewrite EN, EP in QB, U.
  exists F, l. split; [exact EF|]. split; [exact QB|]. intros LE. destruct (U LE) as (PA & SF & GL). split; [exact SF|]. intros K k0 k1 add mul sub opp RM x Lx. pose proof (sorted_len _ _ _ F SP) as LF.
  pose proof (param_same _ _ F _ E cs NV LF PA GL) as SI. assert (ZP : forall b, zero_of K k0 k1 add mul opp F b <-> point_of K k0 k1 add mul opp (nvars g) E cs b).
  { intros b. destruct RM as [RK RP]. rewrite <- (list_zero K k0 k1 add mul sub opp p RK RP (nvars g) F b LF). rewrite <- (gens_zero K k0 k1 add mul sub opp p RK RP _ E cs b NV).
    split; apply (same_zero K k0 k1 add mul sub opp p RK); [exact SI|]. intros f. symmetry. apply SI. }
  destruct (H K k0 k1 add mul sub opp RM) as [H1 H2]. split.
  - intros Sx. destruct (H2 x Lx Sx) as (y & Ly & Zy & Ry & _). exists y. split; [exact Ly|]. split; [apply ZP; exact Zy|exact Ry].
  - intros (y & Ly & Py & Ry). destruct (H1 y Ly (proj2 (ZP _) Py)) as (x' & Rx & _ & Sx). rewrite Ry in Rx. injection Rx as <-. exact Sx.
Qed.
Print Assumptions C78_shape.

(** With multiple roots: for lucky random vectors, when the coordinates are polynomials in the last one, the points of the answer are the solutions of the
    input in every integral domain with p = 0. *)
Theorem C78_multiple : forall p cf env fuel sorter gh k g0 names s rnd E cs g, drv_ok p cf env sorter -> drv_input p g0 names s -> small_last cf sorter g ->
  solve cf env fuel sorter gh k g0 rnd = Some (Answered (AParam E cs), g) ->
  exists F j, engine_input sorter g = Some (1, F) /\ forall V, lucky_run (cf (nvars g)) (env j) fuel F V -> coords_exist (nvars g) p (pfs F) (fun _ => false) ->
    forall K k0 k1 add mul sub opp, ring_mod K k0 k1 add mul sub opp p -> k1 <> k0 -> (forall x y, mul x y = k0 -> x = k0 \/ y = k0) -> forall x, length x = nvars g0 ->
      (solves k0 k1 add mul (fun c : coef => kz K k0 k1 add mul opp (fst c)) s x <->
       exists y, length y = nvars g /\ point_of K k0 k1 add mul opp (nvars g) E cs (at_ k0 y) /\ reported g y = Some x).
Proof.
  intros p cf env fuel sorter gh k g0 names s rnd E cs g D I0 SM RUN. destruct (C78_reduces p cf env fuel sorter gh k g0 names s rnd _ g D I0 RUN) as (F & j & r & EF & EA & SP & H).
  destruct (drv_ns p cf env fuel sorter gh k g0 names s rnd _ g F j D I0 RUN SM EF SP) as (NI & EN & EP & NV). exists F, j. split; [exact EF|]. intros V LU CE K k0 k1 add mul sub opp RM N1 DO x Lx.
  pose proof (C77_complete (cf (nvars g)) (env j) fuel r F E cs V NI EA LU) as C. rewrite EN, EP in C. specialize (C CE K k0 k1 add mul sub opp RM N1 DO). cbv zeta in C.
  destruct (H K k0 k1 add mul sub opp RM) as [H1 H2]. split.
  - intros Sx. destruct (H2 x Lx Sx) as (y & Ly & Zy & Ry & _). exists y. split; [exact Ly|]. split; [apply C; exact Zy|exact Ry].
  - intros (y & Ly & Py & Ry). destruct (H1 y Ly (proj2 (C _) Py)) as (x' & Rx & _ & Sx). rewrite Ry in Rx. injection Rx as <-. exact Sx.
Qed.
Print Assumptions C78_multiple.
