(** Property C66: the text of the solutions. *)
From Coq Require Import String ZArith NArith Arith List Bool Ascii Lia Reals Lra.
From Verif Require Import ModInvModel ParseSpec FglmModel PrintModel PrintSpec PrintProofs PolySpec IsolSpec IsolModel RefineModel InputModel BoxModel BoxProofs BoxProps OutSpec OutModel OutProofs.
Import ListNotations.
Local Open Scope string_scope.
Local Open Scope list_scope.
Open Scope Z_scope.

(** ** C66 *)
(** A text has at most one meaning. *)
Theorem C66_unambiguous text t t' : output_means text t -> output_means text t' -> t = t'.
Proof. apply output_unique. Qed.
Print Assumptions C66_unambiguous.

(** Nothing is written unless the computation ended well; no solution at all; infinitely many solutions over the algebraic closure. *)
Theorem C66_special b dim dquot g mp p gp pts :
  (b <> 0 -> manage_output b dim dquot g mp p gp pts = Some []) /\
  (dquot = 0 -> exists text, manage_output 0 dim dquot g mp p gp pts = Some text /\ output_means text (Lst [int (-1)])) /\
  (dquot <> 0 -> 0 < dim -> exists text, manage_output 0 dim dquot g mp p gp pts = Some text /\ output_means text (Lst [int 1; int (Z.of_nat (nvars g)); int (-1); Lst []])).
Proof.
  split; [|split].
  - intros H. unfold manage_output. destruct (Z.eqb_spec b 0); [contradiction|reflexivity].
  - intros ->. eexists. split; [reflexivity|]. exists ("["%char :: join "," [num (-1)] ++ ["]"%char]). split; [reflexivity|]. apply sp_list. constructor; [apply sp_int, num_int|constructor].
  - intros H D. unfold manage_output, display_output. cbn [Z.eqb]. destruct (Z.eqb_spec dquot 0); [contradiction|]. destruct (Z.eqb_spec dim 0); [lia|]. cbn [andb obind]. replace (0 <? dim) with true by (symmetry; apply Z.ltb_lt; lia). eexists. split; [reflexivity|].
    exists ("["%char :: join "," [num 1; num (Z.of_nat (nvars g)); num (-1); "["%char :: join "," [] ++ ["]"%char]] ++ ["]"%char]). split.
    + rewrite !unblank_app, num_unblank. change (unblank (s_ "[1, ")) with (["["%char] ++ num 1 ++ [","%char]). change (unblank (s_ ", -1, []]:")) with ([","%char] ++ num (-1) ++ [","; "["; "]"; "]"; ":"]%char). change (unblank [nl]) with (@nil ascii). change (unblank []) with (@nil ascii). flat.
    + apply sp_list. repeat (constructor; [apply sp_int, num_int|]). constructor; [apply (sp_list [] []); constructor|constructor].
Qed.
Print Assumptions C66_special.

(** Finitely many solutions. What is held in memory can be written. *)
Definition held (g : gens) (mp p : mparam) : Prop :=
  (0 < nvars g)%nat /\ List.length (vnames g) = nvars g /\ Forall name_shown (vnames g) /\ form_held g /\
  (if field_char g =? 0 then coords_held false {| p_nvars := nvars g; p_elim := p_elim p; p_denom := p_denom p; p_coords := p_coords p; p_cfs := p_cfs p |} (nvars g) else coords_held true mp (nvars g)).
(** The text denotes: 0, the parametrisation if it is asked for (always in positive characteristic), the boxes of the real solutions unless only
    the parametrisation is asked for (characteristic 0). *)
Theorem C66_solutions dquot g mp p gp pts : 0 < dquot -> 0 <= gp -> held g mp p -> (forall pt, In pt pts -> pt <> [] /\ Forall k_nonneg pt) ->
  exists text t, manage_output 0 0 dquot g mp p gp pts = Some text /\ output_means text t /\
    exists tp, points_tree (map (map ends) pts) tp /\
      t = Lst (int 0 :: (if (1 <=? gp) || negb (field_char g =? 0) then [shown_param g dquot p mp] else []) ++ (if (gp <=? 1) && (field_char g =? 0) then [tp] else [])).
Proof.
  intros Hd Hg (H1 & H2 & H3 & H4 & H5) Hp. destruct (points_spelled pts Hp) as (s & tp & E & S & T).
  set (p' := {| p_nvars := nvars g; p_elim := p_elim p; p_denom := p_denom p; p_coords := p_coords p; p_cfs := p_cfs p |}) in *.
  destruct (param_spelled g dquot p' mp H1 H2 H3 H4 eq_refl H5) as (sp & E' & S').
  assert (Q : shown_param g dquot p' mp = shown_param g dquot p mp) by (unfold shown_param, p'; destruct (negb (field_char g =? 0)); reflexivity). rewrite Q in S'. clear Q H1 H2 H3 H4 H5.
  unfold manage_output, display_output. cbn [Z.eqb]. replace (dquot =? 0) with false by (symmetry; apply Z.eqb_neq; lia). replace (0 <=? dquot) with true by (symmetry; apply Z.leb_le; lia). cbn [andb Z.ltb Z.compare].
  fold p'. rewrite E, E'. unfold spelled in S, S'.
  assert (G0 : forall l ss, Forall2 spells l ss -> ss <> [] -> spells (Lst (int 0 :: l)) ("["%char :: join "," (num 0 :: ss) ++ ["]"%char])) by (intros l ss F _; apply sp_list; constructor; [apply sp_int, num_int|exact F]).
  destruct (Z.eqb_spec (field_char g) 0) as [Ec|Ec]; cbn [negb]; [rewrite orb_false_r, andb_true_r|rewrite orb_true_r, andb_false_r].
  - destruct (Z.eqb_spec gp 0) as [Eg|Eg]; [subst gp; cbn [Z.leb Z.compare obind]|]; [|destruct (Z.leb_spec gp 1) as [Lg|Lg]; replace (1 <=? gp) with true by (symmetry; apply Z.leb_le; lia); cbn [obind]].
    + eexists. exists (Lst [int 0; tp]). split; [reflexivity|]. split; [|exists tp; auto]. eexists. split; [|apply (G0 [tp] [unblank s]); [constructor; [exact S|constructor]|discriminate]].
      rewrite !unblank_app. change (unblank (s_ "[0, ")) with (["["%char] ++ num 0 ++ [","%char]). change (unblank (s_ "]:")) with ["]"; ":"]%char. change (unblank [nl]) with (@nil ascii). change (unblank []) with (@nil ascii). flat.
    + eexists. exists (Lst [int 0; shown_param g dquot p mp; tp]). split; [reflexivity|]. split; [|exists tp; auto]. eexists. split; [|apply (G0 [_; tp] [unblank sp; unblank s]); [constructor; [exact S'|constructor; [exact S|constructor]]|discriminate]].
      rewrite !unblank_app. change (unblank (s_ "[0, ")) with (["["%char] ++ num 0 ++ [","%char]). change (unblank (s_ "]:")) with ["]"; ":"]%char. change (unblank (s_ ",")) with [","%char]. change (unblank [nl]) with (@nil ascii). change (unblank []) with (@nil ascii). flat.
    + eexists. exists (Lst [int 0; shown_param g dquot p mp]). split; [reflexivity|]. split; [|exists tp; auto]. eexists. split; [|apply (G0 [_] [unblank sp]); [constructor; [exact S'|constructor]|discriminate]].
      rewrite !unblank_app. change (unblank (s_ "[0, ")) with (["["%char] ++ num 0 ++ [","%char]). change (unblank (s_ "]:")) with ["]"; ":"]%char. change (unblank [nl]) with (@nil ascii). change (unblank []) with (@nil ascii). flat.
  - cbn [obind]. eexists. exists (Lst [int 0; shown_param g dquot p mp]). split; [reflexivity|]. split; [|exists tp; auto]. eexists. split; [|apply (G0 [_] [unblank sp]); [constructor; [exact S'|constructor]|discriminate]].
    rewrite !unblank_app. change (unblank (s_ "[0, ")) with (["["%char] ++ num 0 ++ [","%char]). change (unblank (s_ "]:")) with ["]"; ":"]%char. change (unblank [nl]) with (@nil ascii). change (unblank []) with (@nil ascii). flat.
Qed.
Print Assumptions C66_solutions.

(** What the text says about a coordinate encloses it. *)
Definition read_encloses (t : tree) (y : R) : Prop := exists n d n' d', t = Lst [Val n d; Val n' d'] /\ 0 < d /\ 0 < d' /\ (IZR n / IZR d <= y <= IZR n' / IZR d')%R.
Lemma dyadic_real v k t : 0 <= k -> dyadic_tree (v, k) t -> exists n d, t = Val n d /\ 0 < d /\ (IZR n / IZR d = IZR v * powerRZ 2 (- k))%R.
Proof.
  intros Hk (n & d & -> & Hd & E). cbn [fst snd] in E. exists n, d. split; [reflexivity|]. split; [assumption|].
  assert (D : IZR d <> 0%R) by (apply not_0_IZR; lia). assert (P : IZR (2 ^ k) = powerRZ 2 k) by (rewrite <- (Z2Nat.id k) at 1 by assumption; rewrite <- pow_IZR, pow_powerRZ, Z2Nat.id by assumption; reflexivity).
  assert (P0 : powerRZ 2 k <> 0%R) by (apply powerRZ_NOR; lra). assert (E' : (IZR n * powerRZ 2 k = IZR v * IZR d)%R) by (rewrite <- P, <- !mult_IZR; f_equal; exact E).
  rewrite powerRZ_neg'. apply (Rmult_eq_reg_r (IZR d * powerRZ 2 k)); [|apply Rmult_integral_contrapositive; auto]. field_simplify; [lra|auto|auto].
Qed.
Lemma single_nonempty p rt prec l : single_exact p rt prec = Some l -> l <> [].
Proof. unfold single_exact. destruct (opt_map _ _) as [x|]; [cbn [obind]|discriminate]. intros E. injection E as <-. destruct x; discriminate. Qed.
Lemma lazy_root_nonempty f1 f2 p rt prec l : lazy_root f1 f2 p rt prec = Some l -> l <> [].
Proof.
  unfold lazy_root. destruct (isexact rt); [apply single_nonempty|]. destruct (lazy_loop _ _ _ _ _) as [[[rt' c] [dn up]]|]; [cbn [obind]|discriminate]. destruct (isexact rt'); [apply single_nonempty|].
  destruct (opt_map _ _) as [x|]; [cbn [obind]|discriminate]. intros E. injection E as <-. destruct x; discriminate.
Qed.
(** Isolation, refinement, boxes and printing together: with the hypotheses of C34_solutions, the boxes of the real solutions are written, and
    the numbers read in the text enclose every real solution, one list of boxes per root in increasing order. *)
Theorem C66_real_solutions p prec fuel ivs dquot g mp mq : shape_ok p -> simple_roots (elim p) -> 0 < prec -> real_roots fuel (elim p) prec = Some ivs ->
  (forall r, zeval (elim p) r = 0%R -> zeval (denom p) r <> 0%R) ->
  (forall i, In i ivs -> isexact i = false -> zeval (elim p) (IZR (numer i) * powerRZ 2 (- ik i)) <> 0%R /\ zeval (elim p) (IZR (numer i + 1) * powerRZ 2 (- ik i)) <> 0%R) ->
  0 < dquot -> field_char g = 0 -> held g mp mq ->
  exists N raw pts, (forall f1 f2, (N <= f1)%nat -> (N <= f2)%nat -> opt_map (fun rt => lazy_root f1 f2 p rt prec) ivs = Some raw /\ extract_roots f1 f2 p ivs prec = Some pts) /\
    exists text tps, manage_output 0 0 dquot g mp mq 0 pts = Some text /\ output_means text (Lst [int 0; Lst [int 1; Lst tps]]) /\
    exists rs, (forall r, zeval (elim p) r = 0%R <-> In r rs) /\ ForallOrdPairs Rlt rs /\
      Forall2 (fun r bt => well_evaluated p (fst bt) -> exists l, snd bt = Lst l /\ Forall2 read_encloses l (solution p r)) rs (combine raw tps).
Proof.
  intros H1 H2 H3 H4 H5 H6 Hd Hc Hh. destruct (C34_solutions p prec fuel ivs H1 H2 H3 H4 H5 H6) as (N & raw & pts & A & B & rs & R1 & R2 & R3).
  exists N, raw, pts. split; [exact A|].
  assert (Lr : forall l, In l raw -> l <> []).
  { destruct (A N N (le_n _) (le_n _)) as [A1 _]. clear - A1. revert raw A1. induction ivs as [|i ivs IH]; intros raw E l Hl; cbn [opt_map] in E; [injection E as <-; destruct Hl|].
    destruct (lazy_root N N p i prec) as [b|] eqn:Eb; [|discriminate]. cbn [obind] in E. destruct (opt_map _ ivs) as [r|] eqn:Er; [|discriminate]. cbn [obind] in E. injection E as <-. destruct Hl as [<-|Hl]; [|exact (IH r eq_refl l Hl)].
    exact (lazy_root_nonempty _ _ _ _ _ _ Eb). }
  assert (K : forall pt, In pt pts -> pt <> [] /\ Forall k_nonneg pt).
  { clear - B Lr. induction B as [|l pt raw pts F B IH]; intros q Hq; [destruct Hq|]. destruct Hq as [<-|Hq]; [|apply IH; [intros; apply Lr; right; assumption|assumption]]. split.
    - intros ->. inversion F; subst. apply (Lr []); [left; reflexivity|reflexivity].
    - clear - F. induction F as [|b b' l l' S F IH]; constructor; [|exact IH]. destruct S as (_ & _ & _ & S1 & S2 & _). split; lia. }
  destruct (C66_solutions dquot g mp mq 0 pts Hd ltac:(lia) Hh K) as (text & t & E & M & tp & (tps & -> & T) & ->). rewrite Hc in M. cbn [Z.leb Z.compare Z.eqb negb orb andb app] in M.
  exists text, tps. split; [exact E|]. split; [exact M|]. exists rs. split; [exact R1|]. split; [exact R2|]. clear - R3 B T K.
  revert pts tps T B K R3. revert raw. induction rs as [|r rs IH]; intros raw pts tps T B K R3.
  - inversion R3 as [E|]. destruct raw as [|x raw]; [constructor|]. inversion B; subst. discriminate.
  - destruct raw as [|x raw]; [inversion R3|]. inversion B as [|? pt ? pts' F B']; subst. cbn [map] in T. inversion T as [|? q ? tps' TP T']; subst. cbn [combine] in *. inversion R3 as [|? ? ? ? R R3']; subst. constructor; [|apply (IH raw pts'); [assumption|assumption|intros; apply K; right; assumption|assumption]].
    cbn [fst snd]. intros W. specialize (R W). destruct TP as (l & -> & TP). exists l. split; [reflexivity|]. destruct (K pt (or_introl eq_refl)) as [_ Kp]. clear - R TP Kp. revert l TP. induction R as [|b y pt ys H R IH]; intros l TP; cbn [map] in TP; inversion TP as [|? t ? l' BT TP']; subst; constructor; [|apply IH; [inversion Kp; assumption|assumption]].
    inversion Kp as [|? ? [K1 K2] _]; subst. destruct BT as (lo & up & -> & D1 & D2). cbn [ends fst snd] in D1, D2. destruct (dyadic_real _ _ _ K1 D1) as (n & d & -> & P1 & Q1). destruct (dyadic_real _ _ _ K2 D2) as (n' & d' & -> & P2 & Q2).
    exists n, d, n', d'. split; [reflexivity|]. split; [assumption|]. split; [assumption|]. unfold encloses in H. rewrite Q1, Q2. exact H.
Qed.
Print Assumptions C66_real_solutions.

(** ** Examples *)
(** x^2 - 2 with the coordinate -(3x + 1)/(5 * 2x), the linear form x1 + 2 x2 + A added with base coefficient 2, two boxes. *)
Definition ex_g : gens := mkG 3 ["x1"; "x2"; "A"]%string [] [] [] 0 (-1) 2 false [].
Definition ex_p : mparam := {| p_nvars := 0; p_elim := [-2; 0; 1]; p_denom := [0; 2]; p_coords := Some [[1; 3]; []]; p_cfs := [5; 1] |}.
Definition bx (a k b l : Z) : box := {| val_do := a; k_do := k; val_up := b; k_up := l; bexact := false |}.
Definition ex_pts : list (list box) := [[bx (-3) 1 0 7; bx 5 0 11 3]; [bx 1 2 3 2; bx (-7) 1 (-1) 1]].
Example C66_ex : held ex_g ex_p ex_p /\ (forall pt, In pt ex_pts -> pt <> [] /\ Forall k_nonneg pt) /\
  manage_output 0 0 2 ex_g ex_p ex_p 1 ex_pts = Some (
    s_ "[0, [0, " ++ [nl] ++ s_ "3, " ++ [nl] ++ s_ "2, " ++ [nl] ++ s_ "['x1', 'x2', 'A']," ++ [nl] ++ s_ "[1,2,1]," ++ [nl] ++ s_ "[1," ++ [nl] ++ s_ "[[2, [-2, 0, 1]]," ++ [nl] ++
    s_ "[1, [0, 2]]," ++ [nl] ++ s_ "[" ++ [nl] ++ s_ "[[1, [1, 3]]," ++ [nl] ++ s_ "5]," ++ [nl] ++ s_ "[[-1, [0]]," ++ [nl] ++ s_ "1]" ++ [nl] ++ s_ "]]]],[1," ++ [nl] ++
    s_ "[[[-3 / 2, 0], [5, 11 / 2^3]], [[1 / 2^2, 3 / 2^2], [-7 / 2, -1 / 2]]]" ++ [nl] ++ s_ "]]:" ++ [nl]).
Proof.
  split; [|split; [|vm_compute; reflexivity]].
  - split; [cbn; lia|]. split; [reflexivity|]. split.
    + assert (K : forall x : string, forallb (fun c => negb (is_space c) && negb (Ascii.eqb c quote)) (s_ x) = true -> name_shown x).
      { intros x H. rewrite forallb_forall in H. split; [intros c Hc|intros Hc]; specialize (H _ Hc); apply andb_true_iff in H as [A B]; [apply negb_true_iff in A; exact A|discriminate]. }
      repeat (constructor; [apply K; reflexivity|]). constructor.
    + split; [intros _; vm_compute; reflexivity|]. repeat split.
  - intros pt [<-|[<-|[]]]; (split; [discriminate|]); repeat (constructor; [split; cbn; lia|]); constructor.
Qed.
(** Modulo 7, random linear form 3 x1 - 2 A: the text is computed, the real points are not written. *)
Example C66_ex_ff : exists text, manage_output 0 0 2 (mkG 2 ["x1"; "A"]%string [] [] [] 7 (-1) 1 true [3; -2])
  {| p_nvars := 2; p_elim := [5; 0; 1]; p_denom := [0; 2]; p_coords := Some [[1; 3]]; p_cfs := [] |} ex_p 0 ex_pts = Some text /\ List.length text = 95%nat.
Proof. eexists. split; vm_compute; reflexivity. Qed.
(** The hypothesis on the exponents of the boxes is needed: 1 * 2^3 would be written as 1 / 2 (no box has a negative exponent, C34). *)
Example C66_negative : end_out 1 (-3) = s_ "1 / 2".
Proof. reflexivity. Qed.
