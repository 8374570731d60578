(** C84: vectors and rows for the column variant of FGLM (option -C). *)
From Coq Require Import ZArith Arith List Bool Lia.
From Verif Require Import ModInvModel ColSpec ColModel ColProofs.
Import ListNotations.
Open Scope Z_scope.

(** The comparison: its sign is that of the order, but zero only says that the degrees and the exponents from the third variable on agree. *)
Theorem C84_compare : forall a b, length a = length b ->
  (0 < is_larger a b -> drl_lt b a) /\ (is_larger a b < 0 -> drl_lt a b) /\ (is_larger a b = 0 <-> deg a = deg b /\ skipn 2 a = skipn 2 b).
Proof.
  intros a b L. split; [apply larger_pos, L|]. split; [apply larger_neg, L|]. split; [apply larger_zero, L|]. intros [D E]. unfold is_larger. rewrite D, E, Z.ltb_irrefl.
  generalize (rev (skipn 2 b)). intros l. induction l as [|x l IH]; [reflexivity|]. cbn [down]. rewrite Z.ltb_irrefl. exact IH.
Qed.
Print Assumptions C84_compare.
Example C84_compare_ex : is_larger [2; 0; 1] [0; 3; 0] = -1 /\ is_larger [0; 3; 0] [2; 0; 1] = 1 /\ is_larger [1; 0; 1] [0; 0; 3] < 0.
Proof. repeat split; reflexivity. Qed.

(** The vector of a normal form of at least two terms: the coefficients in the basis, when no two monomials differ only in the first two
    variables and the second largest term is in the basis or the largest is not. *)
Theorem C84_vector : forall nv B P, asc B -> asc (monos P) -> (forall m, In m B \/ In m (monos P) -> length m = nv) -> apart B (monos P) ->
  (2 <= length P)%nat -> Z.of_nat (length P) < 2 ^ 32 -> (forall pre t u, P = pre ++ [t; u] -> In (fst t) B \/ ~ In (fst u) B) ->
  exists v, copy_extrapoly B P = Some v /\ entries B P v.
Proof.
  intros nv B P SB SP Z AP L2 L3 EO. unfold copy_extrapoly. rewrite Z.mod_small by (unfold zlen; lia).
  apply (columns_ok nv (zlen P) B SB); auto; try (intros m Hm; apply Z; auto). lia.
Qed.
Print Assumptions C84_vector.
Definition B0 : list mono := [[0; 0; 0]; [0; 0; 1]; [1; 0; 0]; [0; 0; 2]; [1; 0; 1]; [2; 0; 0]].
Example C84_vector_ex : copy_extrapoly B0 [([0; 0; 1], 4); ([1; 0; 0], 7); ([1; 0; 1], 5); ([3; 0; 0], 9)] = Some [0; 4; 7; 0; 5; 0].
Proof. reflexivity. Qed.

(** A normal form of one term of the basis. *)
Lemma larger_refl a : is_larger a a = 0.
Proof. apply C84_compare; [reflexivity|auto]. Qed.
Theorem C84_vector_one : forall nv B t, asc B -> In (fst t) B -> (forall m, In m B -> length m = nv) -> apart B [fst t] ->
  exists v, copy_extrapoly B [t] = Some v /\ entries B [t] v.
Proof.
  intros nv B t SB HB Z AP. unfold copy_extrapoly. generalize ((zlen [t] - 2) mod 2 ^ 32). intros bound. change (zlen [t]) with 1.
  assert (After : forall C, (forall x, In x C -> x <> fst t) -> exists v, columns bound 1 1 [] C = Some v /\ entries C [t] v).
  { intros C. induction C as [|c C IHC]; intros HC; [exists []; split; [reflexivity|constructor]|]. destruct IHC as (v & E & H); [intros x Hx; apply HC; right; exact Hx|].
    exists (0 :: v). cbn [columns]. change (1 <? 1) with false. cbn iota. rewrite E. split; [reflexivity|]. constructor; [|exact H]. right. split; [|reflexivity]. intros [F|[]]. apply (HC c (or_introl eq_refl)). auto. }
  induction B as [|m B IH]; [destruct HB|]. destruct SB as [SB1 SB2]. cbn [columns]. change (0 <? 1) with true. cbn iota. cbn [advance].
  destruct (list_eq_dec Z.eq_dec m (fst t)) as [Em|Nm].
  - assert (R0 : is_larger (fst t) m = 0) by (rewrite Em; apply larger_refl). rewrite R0. change (0 <? 0) with false. cbn [andb]. rewrite R0. cbn [Z.eqb]. change (0 + 1) with 1.
    destruct (After B) as (v & E & H); [intros x Hx Ex; apply (drl_irrefl m); rewrite Ex, <- Em in *; apply SB1, Hx|]. rewrite E. exists (snd t :: v). split; [reflexivity|]. constructor; [|exact H]. left. left. rewrite Em. destruct t; reflexivity.
  - destruct HB as [HB|HB]; [congruence|]. assert (Q : drl_lt m (fst t)) by (apply SB1, HB). assert (Lm : length m = length (fst t)) by (rewrite (Z m), (Z (fst t)); [reflexivity|right; exact HB|left; reflexivity]).
    assert (Pos : 0 < is_larger (fst t) m). { destruct (Z.lt_trichotomy (is_larger (fst t) m) 0) as [H|[H|H]]; [| |exact H]; exfalso.
      - apply larger_neg in H; [|auto]. exact (drl_irrefl _ (drl_trans _ _ _ Q H)).
      - apply larger_zero in H as [D K]; [|auto]. apply Nm. apply AP; [left; reflexivity|left; reflexivity|auto|auto]. }
    destruct (Z.ltb_spec (is_larger (fst t) m) 0); [lia|]. cbn [andb]. destruct (Z.eqb_spec (is_larger (fst t) m) 0); [lia|].
    destruct IH as (v & E & H'); auto; [intros x Hx; apply Z; right; exact Hx|intros a b Ha Hb; apply AP; [right; exact Ha|exact Hb]|].
    rewrite E. exists (0 :: v). split; [reflexivity|]. constructor; [|exact H']. right. split; [|reflexivity]. intros [F|[]]. apply Nm. auto.
Qed.
Print Assumptions C84_vector_one.
Example C84_vector_one_ex : copy_extrapoly B0 [([1; 0; 0], 7)] = Some [0; 0; 7; 0; 0; 0].
Proof. reflexivity. Qed.

(** Without these conditions: coefficients of x and y are exchanged; the largest coefficient is lost; memory before the terms is read. *)
Theorem C84_swap_refuted : forall c d, exists B P, asc B /\ asc (monos P) /\ (forall m, In m (monos P) -> In m B) /\
  entry P [1; 0] c /\ ~ In [0; 1] (monos P) /\ copy_extrapoly B P = Some [d; c; 0].
Proof.
  intros c d. exists [[0; 0]; [0; 1]; [1; 0]], [([0; 0], d); ([1; 0], c)].
  assert (A : drl_lt [0; 0] [0; 1]) by (left; cbn; lia). assert (A' : drl_lt [0; 0] [1; 0]) by (left; cbn; lia).
  assert (A2 : drl_lt [0; 1] [1; 0]). { right. split; [reflexivity|]. exists 1%nat. split; [cbn; lia|]. intros [|[|j]] Hj; try lia. destruct j; reflexivity. }
  split; [cbn [asc]; repeat split; auto; intros x Hx; repeat (destruct Hx as [<-|Hx]; [assumption|]); destruct Hx|].
  split; [cbn [monos map fst asc]; repeat split; auto; intros x Hx; repeat (destruct Hx as [<-|Hx]; [assumption|]); destruct Hx|].
  split; [intros m [<-|[<-|[]]]; cbn; auto|]. split; [left; cbn; auto|]. split; [intros [H|[H|[]]]; discriminate|]. reflexivity.
Qed.
Print Assumptions C84_swap_refuted.
Theorem C84_lost_refuted : forall nv B pre t u, asc B -> asc (monos (pre ++ [t; u])) -> (forall m, In m B \/ In m (monos (pre ++ [t; u])) -> length m = nv) ->
  apart B (monos (pre ++ [t; u])) -> Z.of_nat (length (pre ++ [t; u])) < 2 ^ 32 -> ~ In (fst t) B ->
  exists v, copy_extrapoly B (pre ++ [t; u]) = Some v /\ entries B (pre ++ [t]) v.
Proof.
  intros nv B pre t u SB SP Z AP L3 NT. unfold copy_extrapoly.
  assert (L2 : 2 <= zlen (pre ++ [t; u])) by (unfold zlen; rewrite app_length; cbn [length]; lia). rewrite Z.mod_small by (unfold zlen in *; lia).
  apply (columns_own nv (zlen (pre ++ [t; u])) B t [u]); auto; try (intros m Hm; apply Z; auto); [right; reflexivity|lia|].
  clear - SP. induction pre as [|p pre IH]; cbn [app monos map asc] in *; [split; [intros x []|exact Logic.I]|]. destruct SP as [S1 S2]. split; [|apply IH, S2].
  intros x Hx. apply S1. rewrite map_app in *. apply in_app_iff in Hx as [Hx|[<-|[]]]; apply in_or_app; [left; exact Hx|right; left; reflexivity].
Qed.
Print Assumptions C84_lost_refuted.
Example C84_lost_ex : copy_extrapoly [[0; 0; 0]; [1; 0; 0]; [2; 0; 0]] [([0; 0; 0], 3); ([0; 0; 1], 4); ([2; 0; 0], 9)] = Some [3; 0; 0].
Proof. reflexivity. Qed.
Theorem C84_one_refuted : forall t m B, deg (fst t) < deg m -> copy_extrapoly (m :: B) [t] = None.
Proof.
  intros t m B H. unfold copy_extrapoly. change (zlen [t]) with 1. cbn [columns]. change (0 <? 1) with true. cbn iota. cbn [advance]. unfold is_larger.
  destruct (Z.ltb_spec (deg (fst t)) (deg m)); [|lia]. reflexivity.
Qed.
Print Assumptions C84_one_refuted.

(** The row of an element of the basis: the negated coefficients, when all terms of the elements before it are smaller than its leading
    monomial, which is not in the monomial basis. *)
Definition negated (fc : Z) (P : poly) : poly := map (fun t => (fst t, fc - snd t)) P.
Lemma monos_neg fc P : monos (negated fc P) = monos P.
Proof. unfold monos, negated. rewrite map_map. reflexivity. Qed.
Theorem C84_row : forall nv fc B before own lm, asc B -> asc (monos (own ++ [lm])) ->
  (forall m, In m B \/ In m (monos (own ++ [lm])) \/ In m (monos (concat before)) -> length m = nv) ->
  apart B (monos (own ++ [lm])) -> apart B (monos (concat before)) -> ~ In (fst lm) B -> (forall t, In t (concat before) -> drl_lt (fst t) (fst lm)) ->
  exists v, copy_poly fc B before (own ++ [lm]) = Some v /\ entries B (negated fc (own ++ [lm])) v.
Proof.
  intros nv fc B before own lm SB SP ZL AP AP2 NL HB.
  assert (CR : forall t, In t (concat (rev before)) -> In t (concat before)). { intros t Ht. apply in_concat in Ht as (l & Hl & Ht). apply in_concat. exists l. split; [apply in_rev; exact Hl|exact Ht]. }
  set (junk := map (fun t : mono * Z => (fst t, fc - snd t)) (concat (rev before))). set (lm' := (fst lm, fc - snd lm)).
  set (ts := (own ++ [lm]) ++ concat (rev before)). change (copy_poly fc B before (own ++ [lm])) with (columns (zlen (negated fc ts) - 2) (zlen (negated fc ts)) 0 (negated fc ts) B).
  assert (E : negated fc ts = negated fc own ++ lm' :: junk).
  { unfold negated, ts. rewrite !map_app. rewrite <- app_assoc. reflexivity. }
  rewrite E. assert (E2 : negated fc (own ++ [lm]) = negated fc own ++ [lm']) by (unfold negated; rewrite map_app; reflexivity). rewrite E2.
  assert (M : forall x, In x (monos (negated fc own ++ lm' :: junk)) -> In x (monos (own ++ [lm])) \/ In x (monos (concat before))).
  { intros x Hx. unfold monos in *. rewrite map_app in Hx. apply in_app_iff in Hx as [Hx|[Hx|Hx]].
    - left. rewrite map_app. apply in_or_app. left. fold (monos (negated fc own)) in Hx. rewrite monos_neg in Hx. exact Hx.
    - left. rewrite map_app. apply in_or_app. right. left. exact Hx.
    - right. unfold junk in Hx. rewrite map_map in Hx. apply in_map_iff in Hx as (t & <- & Ht). cbn [fst]. exact (in_map fst _ t (CR t Ht)). }
  apply (columns_own nv (zlen (negated fc own ++ lm' :: junk)) B lm' junk); auto.
  - intros m Hm. apply ZL. auto.
  - left. intros j Hj. unfold junk in Hj. apply in_map_iff in Hj as (t & <- & Ht). exact (HB t (CR t Ht)).
  - lia.
  - rewrite <- E2, monos_neg. exact SP.
  - intros m Hm. apply ZL. right. apply M, Hm.
  - intros a b Ha Hb D K. destruct (M b Hb) as [H|H]; [apply AP|apply AP2]; assumption.
Qed.
Print Assumptions C84_row.
Example C84_row_ex : copy_poly 101 B0 [[([0; 0; 0], 5); ([0; 0; 3], 1)]] [([0; 0; 1], 4); ([1; 0; 0], 7); ([1; 0; 1], 5); ([3; 0; 0], 1)] = Some [0; 97; 94; 0; 96; 0].
Proof. reflexivity. Qed.

(** The left vector: right when every normal form but the first has at least five terms, all of them in the basis; with fewer terms
    memory before the terms is read. *)
Lemma seek_ok B m : asc B -> In m B -> exists B', seek B m = Some (m :: B') /\ asc (m :: B') /\ (forall x, In x B -> drl_lt m x -> In x (m :: B')) /\ forall x, In x (m :: B') -> In x B.
Proof.
  induction B as [|b B IH]; intros SB H; [destruct H|]. cbn [seek]. unfold same_mono. destruct (list_eq_dec Z.eq_dec m b) as [<-|N].
  - exists B. auto.
  - destruct H as [H|H]; [congruence|]. destruct SB as [S1 S2]. destruct (IH S2 H) as (B' & E & A & F & G). exists B'. split; [exact E|]. split; [exact A|]. split; [|intros x Hx; right; apply G, Hx].
    intros x [<-|Hx] Q; [|apply F; assumption]. exfalso. exact (drl_irrefl _ (drl_trans _ _ _ Q (S1 m H))).
Qed.
Lemma check_ok n : forall B P, asc B -> asc (monos P) -> (forall m, In m (monos P) -> In m B) -> (n <= length P)%nat -> check n B P = Some tt.
Proof.
  induction n as [|n IH]; intros B P SB SP H L; [reflexivity|]. destruct P as [|t P]; [cbn in L; lia|]. cbn [check]. cbn [monos map asc] in SP. destruct SP as [S1 S2].
  destruct (seek_ok B (fst t) SB) as (B' & E & A & F & G); [apply H; left; reflexivity|]. rewrite E. cbn [obind]. apply IH; [exact A|exact S2| |cbn [length] in L; lia].
  intros m Hm. apply F; [apply H; right; exact Hm|apply S1, Hm].
Qed.
Theorem C84_left : forall nv B P0 P Ps, asc B -> (forall m, In m B -> length m = nv) -> apart B B ->
  (forall Q, In Q (P :: Ps) -> asc (monos Q) /\ (forall m, In m (monos Q) -> In m B) /\ (5 <= length Q)%nat /\ Z.of_nat (length Q) < 2 ^ 32) ->
  exists v, left_vector B (P0 :: P :: Ps) = Some v /\ entries B P v.
Proof.
  intros nv B P0 P Ps SB Z AP H. unfold left_vector. cbn [tl].
  assert (F : forallb (fun Q => match check 5 B Q with Some _ => true | None => false end) (P :: Ps) = true).
  { apply forallb_forall. intros Q HQ. destruct (H Q HQ) as (A & I1 & L & _). rewrite (check_ok 5 B Q); auto. }
  rewrite F. destruct (H P (or_introl eq_refl)) as (A & I1 & L & L3). apply (C84_vector nv); auto.
  - intros m [Hm|Hm]; apply Z; auto.
  - intros a b Ha Hb. apply AP; auto.
  - lia.
  - intros pre t u E. left. apply I1. rewrite E. unfold monos. rewrite map_app. apply in_or_app. right. left. reflexivity.
Qed.
Print Assumptions C84_left.
Example C84_left_ex : let P := [([0; 0; 0], 3); ([0; 0; 1], 4); ([1; 0; 0], 7); ([1; 0; 1], 5); ([2; 0; 0], 8)] in left_vector B0 [[]; P; P] = Some [3; 4; 7; 0; 5; 8].
Proof. reflexivity. Qed.
Theorem C84_short_refuted : forall B P0 Ps P, In P Ps -> (length P < 5)%nat -> left_vector B (P0 :: Ps) = None.
Proof.
  intros B P0 Ps P HP L. unfold left_vector. cbn [tl]. assert (C : forall n B, (length P < n)%nat -> check n B P = None).
  { clear. induction P as [|t P IH]; intros n B L; (destruct n as [|n]; [lia|]); cbn [check]; [reflexivity|]. destruct (seek B (fst t)) as [B'|]; [|reflexivity]. cbn [obind]. apply IH. cbn [length] in L. lia. }
  assert (F : forallb (fun P => match check 5 B P with Some _ => true | None => false end) Ps = false).
  { match goal with |- ?b = false => destruct b eqn:F end; [|reflexivity]. rewrite forallb_forall in F. specialize (F P HP). rewrite (C 5%nat B L) in F. discriminate. }
  rewrite F. reflexivity.
Qed.
Print Assumptions C84_short_refuted.
Example C84_short_ex : left_vector B0 [[]; [([0; 0; 0], 3); ([0; 0; 1], 4)]] = None.
Proof. reflexivity. Qed.
