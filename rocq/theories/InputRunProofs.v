(** Proofs about the genericity handling: reachable states and solutions. *)
From Coq Require Import ZArith String List Arith Bool Lia Permutation Ring_theory Ring.
From Verif Require Import ModInvModel InputSpec InputModel InputProofs.
Import ListNotations.
Open Scope Z_scope.

Definition cur_names (n : nat) (cvo : Z) (names : list string) := if cvo =? -1 then names else sw (n - 1) (Z.to_nat cvo) names.
Definition cur_sys (n : nat) (cvo : Z) (s : isys) := if cvo =? -1 then s else sw_sys (n - 1) (Z.to_nat cvo) s.
(** States in which the solver starts an attempt. *)
Definition state_ok (n : nat) (names : list string) (s : isys) (fc : Z) (g : gens) : Prop :=
  field_char g = fc /\
  (linear_form_base_coef g = 0 /\ nvars g = n /\ rand_linear g = false /\ -1 <= change_var_order g /\ (change_var_order g = -1 \/ change_var_order g < Z.of_nat n - 1) /\
     rep g (cur_names n (change_var_order g) names) (cur_sys n (change_var_order g) s)
   \/ 0 < linear_form_base_coef g /\ nvars g = S n /\ exists cs, with_form g names s cs /\ coefs_ok fc cs).

Lemma undo_ok n names s fc g : (0 < n)%nat -> length names = n -> sys_wf n s -> state_ok n names s fc g -> exists b g', undo_variable_order_change g = Some (b, g') /\ field_char g' = fc /\
  (linear_form_base_coef g = 0 /\ linear_form_base_coef g' = 0 /\ nvars g' = n /\ rand_linear g' = false /\ rep g' names s /\ change_var_order g' = change_var_order g + 1 /\
     b = negb (change_var_order g + 1 =? Z.of_nat n - 1)
   \/ 0 < linear_form_base_coef g /\ b = false /\ g' = g).
Proof.
  intros Hn Hl Hw [F [(L0 & N & Rl & C1 & C2 & R)|(L1 & H)]]; unfold undo_variable_order_change.
  - rewrite L0. cbn [Z.ltb Z.compare]. destruct (Z.ltb_spec (-1) (change_var_order g)) as [C|C].
    + unfold idx. replace (change_var_order g <? 0) with false by (symmetry; apply Z.ltb_ge; lia). cbn [obind].
      destruct (swap_with_ok g _ _ (Z.to_nat (change_var_order g)) ltac:(lia) ltac:(lia) R) as (g1 & E & R1 & N1 & F1 & F2 & F3 & F4 & F5). rewrite E. cbn [obind].
      eexists _, _. split; [reflexivity|]. split; [cbn; congruence|]. left. unfold cur_names, cur_sys in R1. replace (change_var_order g =? -1) with false in R1 by (symmetry; apply Z.eqb_neq; lia).
      rewrite N in R1. rewrite sw_inv in R1 by lia. rewrite (sw_sys_inv n) in R1 by (assumption || lia). cbn [set_cvo nvars linear_form_base_coef rand_linear change_var_order].
      repeat split; try congruence. exact (proj1 R1). exact (proj1 (proj2 R1)). destruct R1 as (_ & _ & R1 & _). exact R1. exact (proj1 (proj2 (proj2 (proj2 R1)))). exact (proj1 (proj2 (proj2 (proj2 (proj2 R1))))). exact (proj2 (proj2 (proj2 (proj2 (proj2 R1))))).
    + cbn [obind]. eexists _, _. split; [reflexivity|]. split; [cbn; congruence|]. left. unfold cur_names, cur_sys in R. replace (change_var_order g =? -1) with true in R by (symmetry; apply Z.eqb_eq; lia).
      cbn [set_cvo nvars linear_form_base_coef rand_linear change_var_order]. split; [reflexivity|]. split; [reflexivity || assumption|]. split; [assumption|]. split; [assumption|]. split; [exact R|]. split; [reflexivity|]. now rewrite N.
  - apply Z.ltb_lt in L1. rewrite L1. apply Z.ltb_lt in L1. eexists _, _. split; [reflexivity|]. split; [assumption|]. right. auto.
Qed.
Lemma change_ok n names s fc g : (0 < n)%nat -> length names = n -> sys_wf n s -> state_ok n names s fc g -> exists b g', change_variable_order g = Some (b, g') /\
  (b = true /\ state_ok n names s fc g' /\ linear_form_base_coef g' = 0 /\ change_var_order g' = change_var_order g + 1 \/
   b = false /\ field_char g' = fc /\ linear_form_base_coef g = 0 /\ linear_form_base_coef g' = 0 /\ nvars g' = n /\ rand_linear g' = false /\ rep g' names s /\ change_var_order g' = Z.of_nat n - 1 \/
   b = false /\ g' = g /\ 0 < linear_form_base_coef g).
Proof.
  intros Hn Hl Hw H. assert (H' := H). destruct (undo_ok n names s fc g Hn Hl Hw H) as (b & g1 & E & F & HH). unfold change_variable_order. rewrite E. cbn [obind fst snd].
  destruct HH as [(L0 & L0' & N & Rl & R & C & B)|(L1 & -> & ->)]; [|exists false, g; split; [reflexivity|auto]]. destruct b.
  - symmetry in B. apply negb_true_iff, Z.eqb_neq in B.
    assert (Cr : -1 <= change_var_order g /\ (change_var_order g = -1 \/ change_var_order g < Z.of_nat n - 1)).
    { destruct H' as [_ [(_ & _ & _ & Q)|(Q & _)]]; [|lia]. destruct Q as (Q1 & Q2 & _). auto. }
    assert (Hc : 0 <= change_var_order g + 1 < Z.of_nat n - 1) by lia. unfold idx. replace (change_var_order g + 1 <? 0) with false by (symmetry; apply Z.ltb_ge; lia). cbn [obind].
    destruct (swap_with_ok g1 names s (Z.to_nat (change_var_order g + 1)) ltac:(lia) ltac:(lia) R) as (g2 & E2 & R2 & N2 & F1 & F2 & F3 & F4 & F5). rewrite E2. cbn [obind].
    exists true, g2. split; [reflexivity|]. left. split; [reflexivity|]. split; [|split; congruence]. split; [congruence|]. left.
    assert (Cv : change_var_order g2 = change_var_order g + 1) by congruence. rewrite Cv. split; [congruence|]. split; [congruence|]. split; [congruence|]. split; [lia|]. split; [right; lia|].
    unfold cur_names, cur_sys. replace (change_var_order g + 1 =? -1) with false by (symmetry; apply Z.eqb_neq; lia). rewrite N in R2. exact R2.
  - exists false, g1. split; [reflexivity|]. right. left. symmetry in B. apply negb_false_iff, Z.eqb_eq in B. repeat (split; [first [reflexivity|assumption]|]). lia.
Qed.

Lemma handle_ok n names s fc gh o g rnd ok g' rest : (0 < n)%nat -> length names = n -> sys_wf n s -> state_ok n names s fc g -> handle gh o g rnd = Some (ok, g', rest) ->
  ok = true -> state_ok n names s fc g' /\
  (o = Separation -> rand_linear g' = true /\ with_form g' names s (random_coefs (random_linear_form g')) /\ Forall (unit_coef fc) (random_linear_form g')) /\
  (o = Staircase -> rand_linear g' = rand_linear g /\ (0 < linear_form_base_coef g' -> with_form g' names s (power_coefs fc (linear_form_base_coef g' - 1) n))).
Proof.
  intros Hn Hl Hw HS H ->. destruct o; cbn [handle] in H.
  - destruct (0 <? gh); [|discriminate]. destruct (change_ok n names s fc g Hn Hl Hw HS) as (b & g1 & E & HH). rewrite E in H. cbn [obind fst snd] in H.
    assert (Rg : rand_linear g = false \/ 0 < linear_form_base_coef g) by (destruct HS as [_ [(_ & _ & Q & _)|(Q & _)]]; auto).
    destruct HH as [(-> & S1 & L0 & _)|HH].
    { injection H as <- <-. split; [assumption|]. split; [discriminate|]. intros _. split; [|lia]. destruct S1 as [_ [(_ & _ & Q & _)|(Q & _)]]; [|lia].
      destruct Rg as [Rg|Rg]; [congruence|]. unfold change_variable_order, undo_variable_order_change in E. apply Z.ltb_lt in Rg. rewrite Rg in E. discriminate. }
    assert (Hb : b = false) by tauto. subst b. destruct (gh =? 2); [|discriminate]. destruct (add_linear_form g1) as [[b2 g2]|] eqn:EA; [|discriminate]. cbn [obind fst snd] in H. injection H as -> <- <-.
    assert (FS : (0 < nvars g1)%nat /\ form_stage g1 names s /\ nvars_old g1 = n /\ field_char g1 = fc /\ rand_linear g1 = rand_linear g /\ 0 <= linear_form_base_coef g1).
    { destruct HH as [(_ & F & L0 & L0' & N & Rl & R & C)|(_ & -> & L1)].
      - split; [lia|]. split; [left; auto|]. split; [unfold nvars_old; rewrite L0'; exact N|]. split; [assumption|]. split; [|lia]. destruct Rg as [Rg|Rg]; [congruence|lia].
      - destruct HS as [F [(Q & _)|(_ & N & cs & W & D)]]; [lia|]. split; [lia|]. split; [right; split; [assumption|]; split; [lia|]; exists cs; split; [assumption|exact (proj1 D)]|].
        split; [unfold nvars_old; replace (linear_form_base_coef g =? 0) with false by (symmetry; apply Z.eqb_neq; lia); lia|]. split; [assumption|]. split; [reflexivity|lia]. }
    destruct FS as (P1 & P2 & P3 & P4 & P5 & P6). destruct (add_linear_form_ok g1 names s _ _ P1 P2 EA) as (_ & Q2 & Q3 & Q4 & Q5 & Q6). rewrite P3 in *. rewrite P4 in *.
    split.
    + split; [congruence|]. right. split; [lia|]. split; [congruence|]. eexists. split; [exact Q3|]. apply power_coefs_ok.
    + split; [discriminate|]. intros _. split; [congruence|]. intros _. rewrite Q4. replace (linear_form_base_coef g1 + 1 - 1) with (linear_form_base_coef g1) by lia. exact Q3.
  - assert (U : exists g1, (if 0 <=? change_var_order g then let? r := undo_variable_order_change g in Some (snd r) else Some g) = Some g1 /\
      (0 < nvars g1)%nat /\ form_stage g1 names s /\ nvars_old g1 = n /\ field_char g1 = fc /\ 0 <= linear_form_base_coef g1).
    { destruct (Z.leb_spec 0 (change_var_order g)) as [C|C].
      - destruct (undo_ok n names s fc g Hn Hl Hw HS) as (b & g1 & E & F & HH). rewrite E. cbn [obind snd]. exists g1. split; [reflexivity|].
        destruct HH as [(L0 & L0' & N & Rl & R & _)|(L1 & _ & ->)].
        + split; [lia|]. split; [left; auto|]. split; [unfold nvars_old; rewrite L0'; exact N|]. split; [assumption|lia].
        + destruct HS as [_ [(Q & _)|(_ & N & cs & W & D)]]; [lia|]. split; [lia|]. split; [right; split; [assumption|]; split; [lia|]; exists cs; split; [assumption|exact (proj1 D)]|].
          split; [unfold nvars_old; replace (linear_form_base_coef g =? 0) with false by (symmetry; apply Z.eqb_neq; lia); lia|]. split; [assumption|lia].
      - exists g. split; [reflexivity|]. destruct HS as [F [(L0 & N & Rl & C1 & C2 & R)|(L1 & N & cs & W & D)]].
        + unfold cur_names, cur_sys in R. replace (change_var_order g =? -1) with true in R by (symmetry; apply Z.eqb_eq; lia).
          split; [lia|]. split; [left; auto|]. split; [unfold nvars_old; rewrite L0; exact N|]. split; [assumption|lia].
        + split; [lia|]. split; [right; split; [assumption|]; split; [lia|]; exists cs; split; [assumption|exact (proj1 D)]|].
          split; [unfold nvars_old; replace (linear_form_base_coef g =? 0) with false by (symmetry; apply Z.eqb_neq; lia); lia|]. split; [assumption|lia]. }
    destruct U as (g1 & E & P1 & P2 & P3 & P4 & P6). rewrite E in H. cbn [obind] in H. destruct (gh =? 2); [|discriminate].
    destruct (add_random_ok g1 names s rnd _ _ _ P1 P2 H) as (_ & Q2 & Q3 & Q4 & Q5 & Q6 & Q7 & Q8). rewrite P3, P4 in *. split; [|split; [auto|discriminate]].
    split; [congruence|]. right. split; [lia|]. split; [congruence|]. eexists. split; [exact Q6|]. apply random_coefs_ok; [|assumption]. intros Z0. rewrite Z0 in Q8. discriminate.
Qed.
Lemma fresh_ok names s g : (0 < nvars g)%nat -> fresh g -> rep g names s -> state_ok (nvars g) names s (field_char g) g.
Proof.
  intros Hn (C & L & Rl) R. split; [reflexivity|]. left. rewrite C. unfold cur_names, cur_sys. cbn [Z.eqb Pos.eqb]. repeat (split; [first [assumption|reflexivity|lia]|]). auto.
Qed.
Lemma attempts_ok n names s fc gh os : forall g rnd g', (0 < n)%nat -> length names = n -> sys_wf n s -> state_ok n names s fc g -> attempts gh os g rnd = Some (true, g') -> state_ok n names s fc g'.
Proof.
  induction os as [|o os IH]; intros g rnd g' Hn Hl Hw HS H; cbn [attempts] in H; [injection H as <-; assumption|].
  destruct (handle gh o g rnd) as [[[b g1] r1]|] eqn:E; [|discriminate]. cbn [obind fst snd] in H. destruct b; [|discriminate].
  destruct (handle_ok n names s fc gh o g rnd true g1 r1 Hn Hl Hw HS E eq_refl) as [S1 _]. exact (IH _ _ _ Hn Hl Hw S1 H).
Qed.

(** ** Solutions *)
Lemma At {A} (l m : list A) x : nth_error (l ++ x :: m) (length l) = Some x.
Proof. rewrite nth_error_app2, Nat.sub_diag by lia. reflexivity. Qed.
Lemma transposed_perm {A} a b (l l' : list A) : (a < length l)%nat -> (b < length l)%nat -> transposed a b l l' -> Permutation l l'.
Proof.
  assert (Main : forall a b (l l' : list A), (a < b)%nat -> (b < length l)%nat -> transposed a b l l' -> Permutation l l').
  { clear. intros a b l l' Hab Hb T. destruct (nth_error l b) as [y|] eqn:Ey; [|apply nth_error_None in Ey; lia].
    destruct (nth_error_split l b Ey) as (l0 & l3 & -> & Lb). destruct (nth_error l0 a) as [x|] eqn:Ex; [|apply nth_error_None in Ex; lia].
    destruct (nth_error_split l0 a Ex) as (l1 & l2 & -> & La). replace l' with ((l1 ++ y :: l2) ++ x :: l3).
    - rewrite <- !app_assoc. cbn [app]. apply Permutation_app_head. clear. transitivity (x :: y :: l2 ++ l3).
      + constructor. symmetry. apply Permutation_middle.
      + rewrite perm_swap. constructor. apply Permutation_middle.
    - apply (transposed_fun a b ((l1 ++ x :: l2) ++ y :: l3)); [|assumption]. rewrite app_length in Lb. cbn in Lb. repeat split.
      + repeat (rewrite app_length || cbn [length]). lia.
      + subst a b. rewrite <- !app_assoc. cbn [app]. rewrite At. replace (length l1 + S (length l2))%nat with (length (l1 ++ x :: l2)) by (rewrite app_length; reflexivity).
        change (l1 ++ x :: l2 ++ y :: l3) with (l1 ++ (x :: l2) ++ y :: l3). rewrite app_assoc, At. reflexivity.
      + subst a b. replace (length l1 + S (length l2))%nat with (length (l1 ++ y :: l2)) by (rewrite app_length; reflexivity). rewrite At.
        rewrite <- app_assoc. cbn [app]. rewrite At. reflexivity.
      + intros i I1 I2. rewrite <- !app_assoc. destruct (lt_dec i (length l1)); [rewrite !nth_error_app1 by assumption; reflexivity|]. rewrite !(nth_error_app2 l1) by lia.
        destruct (i - length l1)%nat as [|k] eqn:Ek; [lia|]. cbn. destruct (lt_dec k (length l2)); [rewrite !nth_error_app1 by assumption; reflexivity|]. rewrite !(nth_error_app2 l2) by lia.
        destruct (k - length l2)%nat as [|m] eqn:Em; [lia|]. reflexivity. }
  intros Ha Hb T. destruct (lt_eq_lt_dec a b) as [[H|<-]|H].
  - exact (Main a b l l' H Hb T).
  - replace l' with l; [reflexivity|]. destruct T as (T1 & T2 & _ & T4). apply nth_error_ext. intros i. destruct (Nat.eq_dec i a) as [->|D]; [congruence|]. symmetry. now apply T4.
  - exact (Main b a l l' H Ha (transposed_comm _ _ _ _ T)).
Qed.
Lemma nth_error_combine {A B} (l : list A) (m : list B) i : length l = length m -> nth_error (combine l m) i = match nth_error l i, nth_error m i with Some x, Some y => Some (x, y) | _, _ => None end.
Proof. revert m i. induction l as [|a l IH]; intros [|b m] [|i] H; cbn in *; try discriminate; try reflexivity. apply IH. lia. Qed.
Lemma combine_transposed {A B} a b (l l' : list A) (m m' : list B) : length l = length m -> transposed a b l l' -> transposed a b m m' -> transposed a b (combine l m) (combine l' m').
Proof.
  intros L (A1 & B1 & C1 & D1) (A2 & B2 & C2 & D2). assert (L' : length l' = length m') by lia. repeat split.
  - rewrite !combine_length. lia.
  - rewrite !nth_error_combine by assumption. now rewrite B1, B2.
  - rewrite !nth_error_combine by assumption. now rewrite C1, C2.
  - intros i I1 I2. rewrite !nth_error_combine by assumption. now rewrite D1, D2.
Qed.

Section Ring.
  Context {K : Type}.
  Variables (k0 k1 : K) (kadd kmul ksub : K -> K -> K) (kopp : K -> K) (phi : coef -> K).
  Hypothesis RT : ring_theory k0 k1 kadd kmul ksub kopp eq.
  Add Ring Kring : RT.
  Notation mv := (mono_val k1 kmul).
  Notation pv := (poly_val k0 k1 kadd kmul phi).
  Notation sol := (solves k0 k1 kadd kmul phi).

  Lemma mono_val_prod x e : length x = length e -> mv x e = fold_right (fun p r => kmul (kpow k1 kmul (fst p) (Z.to_nat (snd p))) r) k1 (combine x e).
  Proof. revert e. induction x as [|a x IH]; intros [|m e] H; cbn in *; try discriminate; [reflexivity|]. f_equal. apply IH. lia. Qed.
  Lemma prod_perm (l l' : list (K * Z)) : Permutation l l' -> fold_right (fun p r => kmul (kpow k1 kmul (fst p) (Z.to_nat (snd p))) r) k1 l = fold_right (fun p r => kmul (kpow k1 kmul (fst p) (Z.to_nat (snd p))) r) k1 l'.
  Proof. induction 1; cbn; [reflexivity|congruence|ring|congruence]. Qed.
  Lemma mono_val_transposed a b x x' e e' : length x = length e -> (a < length x)%nat -> (b < length x)%nat -> transposed a b x x' -> transposed a b e e' -> mv x' e' = mv x e.
  Proof.
    intros L Ha Hb T1 T2. assert (L' : length x' = length e') by (destruct T1 as [Q1 _], T2 as [Q2 _]; lia). rewrite !mono_val_prod by assumption. symmetry. apply prod_perm.
    apply (transposed_perm a b); [rewrite combine_length; lia|rewrite combine_length; lia|]. now apply combine_transposed.
  Qed.
  Lemma solves_sw n a b s x : (a < n)%nat -> (b < n)%nat -> length x = n -> sys_wf n s -> sol (sw_sys a b s) (sw a b x) <-> sol s x.
  Proof.
    intros Ha Hb Hx Hw. assert (P : forall p, In p s -> pv (map (fun t => (fst t, sw a b (snd t))) p) (sw a b x) = pv p x).
    { intros p Hp. specialize (Hw p Hp). clear Hp. induction p as [|t p IH]; cbn [map poly_val fst snd]; [reflexivity|]. rewrite IH by (intros; apply Hw; now right).
      f_equal. f_equal. assert (Lt := Hw t (or_introl eq_refl)). apply (mono_val_transposed a b); try lia; apply sw_ok; lia. }
    unfold solves, sw_sys. split.
    - intros H p Hp. rewrite <- (P p Hp). apply H. apply in_map_iff. eauto.
    - intros H q Hq. apply in_map_iff in Hq. destruct Hq as (p & <- & Hp). rewrite (P p Hp). auto.
  Qed.

  (** The linear form *)
  Fixpoint dot (cs : list coef) (y : list K) : K := match cs, y with c :: cs', a :: y' => kadd (kmul (phi c) a) (dot cs' y') | _, _ => k0 end.
  Lemma mono_unit (y : list K) : forall st i, mv y (map (fun j => if Nat.eqb j i then 1 else 0) (seq st (length y))) = if (st <=? i)%nat && (i <? st + length y)%nat then nth (i - st) y k1 else k1.
  Proof.
    induction y as [|a y IH]; intros st i; cbn [length seq map mono_val].
    - replace ((st <=? i)%nat && (i <? st + 0)%nat) with false; [reflexivity|]. symmetry. apply andb_false_iff. rewrite Nat.leb_gt, Nat.ltb_ge. lia.
    - rewrite IH. destruct (Nat.eqb_spec st i) as [->|D].
      + replace ((S i <=? i)%nat) with false by (symmetry; apply Nat.leb_gt; lia). cbn [andb]. replace ((i <=? i)%nat) with true by (symmetry; apply Nat.leb_le; lia).
        replace ((i <? i + S (length y))%nat) with true by (symmetry; apply Nat.ltb_lt; lia). rewrite Nat.sub_diag. change (Z.to_nat 1) with 1%nat. cbn [nth kpow andb]. ring.
      + cbn [Z.to_nat kpow]. replace ((S st <=? i)%nat && (i <? S st + length y)%nat) with ((st <=? i)%nat && (i <? st + S (length y))%nat).
        * destruct ((st <=? i)%nat && (i <? st + S (length y))%nat) eqn:B; [|ring]. apply andb_true_iff in B. destruct B as [B1 B2]. apply Nat.leb_le in B1.
          replace (i - st)%nat with (S (i - S st)) by lia. cbn [nth]. ring.
        * f_equal; [|f_equal; lia]. destruct (Nat.leb_spec st i), (Nat.leb_spec (S st) i); lia || reflexivity.
  Qed.
  Lemma form_dot (y : list K) : forall (cs : list coef) st, (st + length cs <= length y)%nat -> pv (combine cs (map (unit_exp (length y)) (seq st (length cs)))) y = dot cs (skipn st y).
  Proof.
    induction cs as [|c cs IH]; intros st H; cbn [length seq map combine poly_val dot fst snd]; [reflexivity|]. cbn [length] in H. rewrite IH by lia. unfold unit_exp. rewrite mono_unit.
    replace ((0 <=? st)%nat && (st <? 0 + length y)%nat) with true by (symmetry; apply andb_true_iff; split; [reflexivity|apply Nat.ltb_lt; lia]). rewrite Nat.sub_0_r.
    assert (E : skipn st y = nth st y k1 :: skipn (S st) y).
    { clear - H. revert st H. induction y as [|a y IH]; intros st H; cbn [length] in H; [lia|]. destruct st; [reflexivity|]. cbn [skipn nth]. rewrite IH by lia. reflexivity. }
    rewrite E. reflexivity.
  Qed.
  Lemma form_val cs y : length y = length cs -> pv (linear_form cs) y = dot cs y.
  Proof. intros H. unfold linear_form. rewrite <- H at 1. rewrite form_dot by lia. reflexivity. Qed.
  Lemma dot_app cs c x t : length cs = length x -> dot (cs ++ [c]) (x ++ [t]) = kadd (dot cs x) (kmul (phi c) t).
  Proof. revert x. induction cs as [|d cs IH]; intros [|a x] H; cbn in *; try discriminate; [ring|]. rewrite IH by lia. ring. Qed.
  Lemma mono_ext x e t : length x = length e -> mv (x ++ [t]) (e ++ [0]) = mv x e.
  Proof. revert e. induction x as [|a x IH]; intros [|m e] H; cbn in *; try discriminate; [ring|]. rewrite IH by lia. reflexivity. Qed.
  Lemma poly_ext n p x t : length x = n -> (forall u, In u p -> length (snd u) = n) -> pv (map ext_term p) (x ++ [t]) = pv p x.
  Proof.
    intros Hx. induction p as [|u p IH]; intros Hw; cbn [map poly_val]; [reflexivity|]. rewrite IH by (intros; apply Hw; now right). unfold ext_term. cbn [fst snd].
    rewrite mono_ext by (rewrite (Hw u) by (now left); assumption). reflexivity.
  Qed.
  Lemma solves_ext n s cs c x t : sys_wf n s -> length x = n -> length cs = n ->
    sol (ext_sys s ++ [linear_form (cs ++ [c])]) (x ++ [t]) <-> sol s x /\ kadd (dot cs x) (kmul (phi c) t) = k0.
  Proof.
    intros Hw Hx Hc. assert (F : pv (linear_form (cs ++ [c])) (x ++ [t]) = kadd (dot cs x) (kmul (phi c) t)).
    { rewrite form_val by (rewrite !app_length; cbn; lia). apply dot_app. lia. }
    unfold solves. split.
    - intros H. split.
      + intros p Hp. rewrite <- (poly_ext n p x t Hx (Hw p Hp)). apply H. apply in_or_app. left. unfold ext_sys. now apply in_map.
      + rewrite <- F. apply H. apply in_or_app. right. now left.
    - intros [H1 H2] q Hq. apply in_app_or in Hq. destruct Hq as [Hq|[<-|[]]]; [|now rewrite F].
      unfold ext_sys in Hq. apply in_map_iff in Hq. destruct Hq as (p & <- & Hp). rewrite (poly_ext n p x t Hx (Hw p Hp)). auto.
  Qed.

  (** The points reported for a state are the solutions of the input, one for each solution of the current system. *)
  Lemma reported_ok n names s fc g : (0 < n)%nat -> length names = n -> sys_wf n s -> state_ok n names s fc g -> (forall v, unit_coef fc v -> exists w, kmul w (phi (v, 1)) = k1) ->
    exists nm sg, rep g nm sg /\
    (forall y, length y = nvars g -> sol sg y -> exists x, reported g y = Some x /\ length x = n /\ sol s x) /\
    (forall x, length x = n -> sol s x -> exists y, length y = nvars g /\ sol sg y /\ reported g y = Some x /\ forall y', length y' = nvars g -> sol sg y' -> reported g y' = Some x -> y' = y).
  Proof.
    intros Hn Hl Hw [F HS] U. unfold reported. destruct HS as [(L0 & N & Rl & C1 & C2 & R)|(L1 & N & cs & W & D1 & v & D2 & D3)].
    - exists (cur_names n (change_var_order g) names), (cur_sys n (change_var_order g) s). split; [assumption|]. rewrite L0. cbn [Z.ltb Z.compare]. rewrite N. unfold cur_sys.
      destruct (Z.eqb_spec (change_var_order g) (-1)) as [E|E]; cbn [negb andb].
      + split; [intros y Ly Hy; exists y; auto|]. intros x Lx Hx. exists x. repeat split; try assumption. intros y' _ _ Q. congruence.
      + destruct C2 as [C2|C2]; [contradiction|]. replace (change_var_order g =? Z.of_nat n - 1) with false by (symmetry; apply Z.eqb_neq; lia). cbn [negb]. unfold idx.
        replace (change_var_order g <? 0) with false by (symmetry; apply Z.ltb_ge; lia). cbn [obind]. set (c := Z.to_nat (change_var_order g)). assert (Hc : (c < n)%nat) by lia. split.
        * intros y Ly Hy. destruct (sw_ok (n - 1) c y ltac:(lia) ltac:(lia)) as [E1 _]. exists (sw (n - 1) c y). split; [assumption|]. assert (L := sw_len (n - 1) c y ltac:(lia) ltac:(lia)). split; [lia|].
          apply (solves_sw n (n - 1) c s (sw (n - 1) c y)); try lia; try assumption. rewrite sw_inv by lia. assumption.
        * intros x Lx Hx. exists (sw (n - 1) c x). assert (L := sw_len (n - 1) c x ltac:(lia) ltac:(lia)). split; [lia|]. split; [apply (solves_sw n); try lia; assumption|].
          split; [destruct (sw_ok (n - 1) c (sw (n - 1) c x) ltac:(lia) ltac:(lia)) as [E1 _]; rewrite E1, sw_inv by lia; reflexivity|].
          intros y' Ly' Hy' Q. destruct (sw_ok (n - 1) c y' ltac:(lia) ltac:(lia)) as [E1 _]. rewrite E1 in Q. injection Q as Q. rewrite <- Q. rewrite sw_inv by lia. reflexivity.
    - destruct W as [R Lc]. exists (names ++ ["A"%string]), (ext_sys s ++ [linear_form cs]). split; [assumption|]. apply Z.ltb_lt in L1. rewrite L1. apply Z.ltb_lt in L1. rewrite N.
      destruct (split_last_len cs n ltac:(congruence)) as (cs0 & c & -> & Lc0). rewrite last_last in D2. subst c. destruct (U v D3) as (w & Hw1). split.
      + intros y Ly Hy. destruct (split_last_len y n Ly) as (x & t & -> & Lx). rewrite removelast_last. exists x. split; [reflexivity|]. split; [assumption|]. apply (solves_ext n s cs0 (v, 1) x t) in Hy; tauto.
      + intros x Lx Hx. set (t := kmul w (kopp (dot cs0 x))). exists (x ++ [t]). split; [rewrite app_length; cbn; lia|]. split; [|split; [now rewrite removelast_last|]].
        * apply (solves_ext n); try assumption. split; [assumption|]. unfold t. transitivity (kadd (dot cs0 x) (kmul (kmul w (phi (v, 1))) (kopp (dot cs0 x)))); [ring|]. rewrite Hw1. ring.
        * intros y' Ly' Hy' Q. destruct (split_last_len y' n Ly') as (x' & t' & -> & Lx'). rewrite removelast_last in Q. injection Q as ->. apply (solves_ext n) in Hy'; try assumption. destruct Hy' as [_ Hy'].
          do 2 f_equal. unfold t. transitivity (kmul (kmul w (phi (v, 1))) t'); [rewrite Hw1; ring|]. transitivity (kadd (kmul w (kadd (dot cs0 x) (kmul (phi (v, 1)) t'))) (kmul w (kopp (dot cs0 x)))); [ring|].
          rewrite Hy'. ring.
  Qed.
End Ring.
