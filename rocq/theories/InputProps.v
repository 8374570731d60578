(** Properties C39, C40 and C56: the genericity handling of the solver. *)
From Coq Require Import ZArith String List Arith Bool Lia Ring_theory Reals Lra.
From Verif Require Import ModInvModel InputSpec InputModel InputProofs InputRunProofs.
Import ListNotations.
Open Scope Z_scope.

(** The record determines the system. *)
Lemma app_inj_len {A} (a b c d : list A) : length a = length b -> a ++ c = b ++ d -> a = b /\ c = d.
Proof. revert b. induction a as [|x a IH]; intros [|y b] L H; cbn in *; try discriminate; [auto|]. injection H as -> H. destruct (IH b ltac:(lia) H). split; congruence. Qed.
Lemma poly_unique n (p q : ipoly) : (forall t, In t p -> length (snd t) = n) -> (forall t, In t q -> length (snd t) = n) -> length p = length q -> forall r r' c c',
  flat_map snd p ++ r = flat_map snd q ++ r' -> map fst p ++ c = map fst q ++ c' -> p = q /\ r = r' /\ c = c'.
Proof.
  revert q. induction p as [|[a e] p IH]; intros [|[b f] q] Hp Hq L r r' c c' H1 H2; cbn in *; try discriminate; [auto|]. injection H2 as -> H2. rewrite <- !app_assoc in H1.
  apply app_inj_len in H1; [|transitivity n; [apply (Hp (b, e))|symmetry; apply (Hq (b, f))]; now left]. destruct H1 as [-> H1].
  destruct (IH q (fun t h => Hp t (or_intror h)) (fun t h => Hq t (or_intror h)) ltac:(lia) _ _ _ _ H1 H2) as (-> & -> & ->). auto.
Qed.
Lemma rep_unique g n1 n2 s1 s2 : rep g n1 s1 -> rep g n2 s2 -> n1 = n2 /\ s1 = s2.
Proof.
  intros (R1 & R2 & R3 & R4 & R5 & R6) (T1 & T2 & T3 & T4 & T5 & T6). split; [congruence|]. rewrite R4 in T4. rewrite R5 in T5. rewrite R6 in T6. clear - R3 T3 T4 T5 T6.
  revert s2 T3 T4 T5 T6. induction s1 as [|p s1 IH]; intros [|q s2] T3 T4 T5 T6; cbn in *; try discriminate; [reflexivity|]. injection T4 as L T4.
  destruct (poly_unique (nvars g) p q (R3 p (or_introl eq_refl)) (T3 q (or_introl eq_refl)) L _ _ _ _ T5 T6) as (-> & E1 & E2). f_equal. apply IH; try assumption.
  - intros x Hx. apply R3. now right.
  - intros x Hx. apply T3. now right.
Qed.

(** ** C39 *)
(** However many attempts have been made: as long as no linear form was added, the system being solved is the input, or
    the input with the last variable exchanged with one other, names and exponents alike, coefficients unchanged. *)
Theorem C39_variable_order gh os g0 names s rnd g : (0 < nvars g0)%nat -> fresh g0 -> rep g0 names s ->
  attempts gh os g0 rnd = Some (true, g) -> linear_form_base_coef g = 0 ->
  exists nm sg, rep g nm sg /\
    (change_var_order g = -1 /\ nm = names /\ sg = s \/
     exists c, (c < nvars g0 - 1)%nat /\ change_var_order g = Z.of_nat c /\ transposed (nvars g0 - 1) c names nm /\ sys_transposed (nvars g0 - 1) c s sg).
Proof.
  intros Hn Hf R H L. assert (R' := R). destruct R' as (R1 & R2 & R3 & _).
  destruct (attempts_ok _ names s (field_char g0) gh os g0 rnd g Hn R2 R3 (fresh_ok names s g0 Hn Hf R) H) as [_ [(L0 & N & Rl & C1 & C2 & RR)|(Q & _)]]; [|lia].
  eexists _, _. split; [exact RR|]. unfold cur_names, cur_sys. destruct (Z.eqb_spec (change_var_order g) (-1)) as [E|E]; [auto|]. destruct C2 as [C2|C2]; [contradiction|]. right.
  exists (Z.to_nat (change_var_order g)). split; [lia|]. split; [lia|]. split; [apply sw_ok; lia|apply (sw_sys_spec (nvars g0)); lia || assumption].
Qed.
Print Assumptions C39_variable_order.
(** Each of the other variables is tried once as last variable, in order; then the input is back in place. *)
Theorem C39_all_orders g0 names s rnd : (0 < nvars g0)%nat -> fresh g0 -> rep g0 names s ->
  (forall k, (k < nvars g0)%nat -> exists g, attempts 1 (repeat Staircase k) g0 rnd = Some (true, g) /\ change_var_order g = Z.of_nat k - 1 /\ linear_form_base_coef g = 0) /\
  exists g, attempts 1 (repeat Staircase (nvars g0)) g0 rnd = Some (false, g) /\ rep g names s.
Proof.
  intros Hn Hf R. assert (R' := R). destruct R' as (R1 & R2 & R3 & _). set (n := nvars g0) in *.
  assert (A : forall k g, state_ok n names s (field_char g0) g -> linear_form_base_coef g = 0 -> change_var_order g + Z.of_nat k < Z.of_nat n - 1 ->
    exists g', attempts 1 (repeat Staircase k) g rnd = Some (true, g') /\ state_ok n names s (field_char g0) g' /\ linear_form_base_coef g' = 0 /\ change_var_order g' = change_var_order g + Z.of_nat k /\
      forall j, attempts 1 (repeat Staircase (k + j)) g rnd = attempts 1 (repeat Staircase j) g' rnd).
  { induction k as [|k IH]; intros g HS L0 Hk; [exists g; cbn; repeat (split; [assumption || reflexivity|]); split; [lia|reflexivity]|].
    destruct (change_ok n names s (field_char g0) g Hn R2 R3 HS) as (b & g1 & E & HH). destruct HH as [(-> & S1 & L1 & C1)|[(-> & _ & _ & _ & _ & _ & _ & C)|(_ & _ & Q)]]; [| |lia].
    - destruct (IH g1 S1 L1 ltac:(lia)) as (g' & E' & S' & L' & C' & J). exists g'. cbn [repeat attempts handle Z.ltb Z.compare Nat.add]. rewrite E. cbn [obind fst snd]. repeat (split; [assumption|]). split; [lia|]. exact J.
    - assert (CC : change_var_order g1 = change_var_order g + 1).
      { unfold change_variable_order in E. destruct (undo_ok n names s (field_char g0) g Hn R2 R3 HS) as (b & g2 & E2 & _ & [(_ & _ & _ & _ & _ & C2 & _)|(Q & _)]); [|lia]. rewrite E2 in E. cbn [obind fst snd] in E.
        destruct b; [destruct (idx _); [cbn [obind] in E; destruct (swap_with g2 n0)|]; discriminate|]. injection E as <-. exact C2. }
      lia. }
  assert (S0 := fresh_ok names s g0 Hn Hf R). destruct Hf as (C0 & L0 & _). split.
  - intros k Hk. destruct (A k g0 S0 L0 ltac:(lia)) as (g' & E & _ & L & C & _). exists g'. split; [assumption|]. split; [lia|assumption].
  - destruct (A (n - 1)%nat g0 S0 L0 ltac:(lia)) as (g' & E & S1 & L & C & J). specialize (J 1%nat). replace (n - 1 + 1)%nat with n in J by lia. rewrite J. cbn [repeat attempts handle Z.ltb Z.compare].
    destruct (change_ok n names s (field_char g0) g' Hn R2 R3 S1) as (b & g1 & E1 & HH). rewrite E1. cbn [obind fst snd]. destruct HH as [(-> & S2 & L2 & C2)|[(-> & _ & _ & _ & _ & _ & RR & C2)|(_ & _ & Q)]]; [|exists g1; cbn; auto|lia].
    destruct S2 as [_ [(_ & _ & _ & B1 & B2 & _)|(Q & _)]]; lia.
Qed.
Print Assumptions C39_all_orders.
(** The points reported are those of the input: in every commutative ring in which the coefficient of the new variable is
    invertible, the solutions of the system being solved correspond one to one, through the reported coordinates, to the
    solutions of the input. *)
Theorem C39_solutions {K} (k0 k1 : K) (kadd kmul ksub : K -> K -> K) (kopp : K -> K) (phi : coef -> K) gh os g0 names s rnd g nm sg :
  ring_theory k0 k1 kadd kmul ksub kopp eq -> (forall v, unit_coef (field_char g0) v -> exists w, kmul w (phi (v, 1)) = k1) ->
  (0 < nvars g0)%nat -> fresh g0 -> rep g0 names s -> attempts gh os g0 rnd = Some (true, g) -> rep g nm sg ->
  (forall y, length y = nvars g -> solves k0 k1 kadd kmul phi sg y -> exists x, reported g y = Some x /\ length x = nvars g0 /\ solves k0 k1 kadd kmul phi s x) /\
  (forall x, length x = nvars g0 -> solves k0 k1 kadd kmul phi s x ->
     exists y, length y = nvars g /\ solves k0 k1 kadd kmul phi sg y /\ reported g y = Some x /\
       forall y', length y' = nvars g -> solves k0 k1 kadd kmul phi sg y' -> reported g y' = Some x -> y' = y).
Proof.
  intros RT U Hn Hf R H Rg. assert (R' := R). destruct R' as (R1 & R2 & R3 & _).
  assert (S1 := attempts_ok _ names s (field_char g0) gh os g0 rnd g Hn R2 R3 (fresh_ok names s g0 Hn Hf R) H).
  destruct (reported_ok k0 k1 kadd kmul ksub kopp phi RT _ names s (field_char g0) g Hn R2 R3 S1 U) as (nm' & sg' & Rg' & A & B).
  destruct (rep_unique g nm nm' sg sg' Rg Rg') as [-> ->]. auto.
Qed.
Print Assumptions C39_solutions.
(** Real solutions in characteristic 0: no further hypothesis. *)
Definition real_coef (c : coef) : R := (IZR (fst c) / IZR (snd c))%R.
Corollary C39_real_solutions gh os g0 names s rnd g nm sg :
  (0 < nvars g0)%nat -> fresh g0 -> rep g0 names s -> attempts gh os g0 rnd = Some (true, g) -> rep g nm sg ->
  (forall y, length y = nvars g -> solves 0%R 1%R Rplus Rmult real_coef sg y -> exists x, reported g y = Some x /\ length x = nvars g0 /\ solves 0%R 1%R Rplus Rmult real_coef s x) /\
  (forall x, length x = nvars g0 -> solves 0%R 1%R Rplus Rmult real_coef s x -> exists y, length y = nvars g /\ solves 0%R 1%R Rplus Rmult real_coef sg y /\ reported g y = Some x).
Proof.
  intros Hn Hf R H Rg. destruct (C39_solutions 0%R 1%R Rplus Rmult Rminus Ropp real_coef gh os g0 names s rnd g nm sg RTheory) as [A B]; try assumption.
  - intros v [V _]. exists (/ IZR v)%R. unfold real_coef. cbn [fst snd]. field. now apply not_0_IZR.
  - split; [assumption|]. intros x Lx Hx. destruct (B x Lx Hx) as (y & Y1 & Y2 & Y3 & _). eauto.
Qed.
Print Assumptions C39_real_solutions.

(** ** C40 *)
(** Once a linear form has been added, the system is the input with exponent 0 in one new last variable, and one more
    generator, linear, whose coefficient of the new variable is not 0. *)
Theorem C40_extends gh os g0 names s rnd g : (0 < nvars g0)%nat -> fresh g0 -> rep g0 names s ->
  attempts gh os g0 rnd = Some (true, g) -> linear_form_base_coef g <> 0 ->
  exists cs v, rep g (names ++ ["A"%string]) (ext_sys s ++ [linear_form (cs ++ [(v, 1)])]) /\ length cs = nvars g0 /\ unit_coef (field_char g0) v.
Proof.
  intros Hn Hf R H L. assert (R' := R). destruct R' as (R1 & R2 & R3 & _).
  destruct (attempts_ok _ names s (field_char g0) gh os g0 rnd g Hn R2 R3 (fresh_ok names s g0 Hn Hf R) H) as [_ [(L0 & _)|(Q & N & cs & W & D1 & v & D2 & D3)]]; [contradiction|].
  destruct W as [W Lc]. destruct (split_last_len cs (nvars g0) ltac:(congruence)) as (cs0 & c & -> & Lc0). rewrite last_last in D2. subst c. exists cs0, v. auto.
Qed.
Print Assumptions C40_extends.
(** The coefficients of the i-th deterministic form are the powers k^(i-1). *)
Theorem C40_coefficients gh os g0 names s rnd g : (0 < nvars g0)%nat -> fresh g0 -> rep g0 names s ->
  attempts gh (os ++ [Staircase]) g0 rnd = Some (true, g) -> linear_form_base_coef g <> 0 ->
  rep g (names ++ ["A"%string]) (ext_sys s ++ [linear_form (power_coefs (field_char g0) (linear_form_base_coef g - 1) (nvars g0))]).
Proof.
  intros Hn Hf R H L. assert (R' := R). destruct R' as (R1 & R2 & R3 & _). assert (S0 := fresh_ok names s g0 Hn Hf R). clear Hf R. set (n := nvars g0) in *. set (fc := field_char g0) in *. clearbody n fc. clear R1.
  revert g0 rnd S0 H. induction os as [|o os IH]; intros g0 rnd S0 H; cbn [app attempts] in H; destruct (handle gh _ g0 rnd) as [[[b g1] r1]|] eqn:E; try discriminate; cbn [obind fst snd] in H; destruct b; try discriminate.
  - injection H as <-. destruct (handle_ok n names s fc gh _ g0 rnd true g1 r1 Hn R2 R3 S0 E eq_refl) as (S1 & _ & Q). destruct (Q eq_refl) as [_ Q2]. apply Q2.
    destruct S1 as [_ [(L0 & _)|(Q3 & _)]]; [contradiction|assumption].
  - destruct (handle_ok n names s fc gh _ g0 rnd true g1 r1 Hn R2 R3 S0 E eq_refl) as (S1 & _). exact (IH g1 r1 S1 H).
Qed.
Print Assumptions C40_coefficients.

(** ** C56 *)
(** The linear form shown with the parametrisation is, up to a common denominator and modulo the characteristic, the form
    in the system, if no random form was ever added or the last form added is random. *)
Definition shows (fc : Z) (sh cs : list coef) : Prop := exists d, 0 < d /\ Forall2 (fun a c => snd a = d /\ (fc | fst a - fst c)) sh cs.
Lemma shows_random fc n vs : (0 < n)%nat -> length vs = S n -> Forall (unit_coef fc) vs ->
  shows fc (map (fun r => (r, if fc =? 0 then fold_right Z.add 0 (map (fun r => Z.abs r * Z.of_nat (S n) - 1) vs) else 1)) vs) (random_coefs vs).
Proof.
  intros Hn Hl Hv. set (d := if fc =? 0 then _ else 1). exists d. split.
  - unfold d. destruct (fc =? 0); [|lia]. assert (G : forall l, Forall (unit_coef fc) l -> Z.of_nat (length l) <= fold_right Z.add 0 (map (fun r => Z.abs r * Z.of_nat (S n) - 1) l)).
    { induction l as [|a l IH]; intros H; [cbn; lia|]. inversion H as [|? ? [H1 _] H2]; subst. specialize (IH H2). cbn [length map fold_right]. nia. }
    specialize (G vs Hv). lia.
  - clear Hl Hv. clearbody d. induction vs as [|a vs IH]; cbn [map random_coefs]; constructor; [|exact IH]. cbn [fst snd]. split; [reflexivity|]. rewrite Z.sub_diag. apply Z.divide_0_r.
Qed.
Lemma shows_powers fc e n : 0 <= fc -> shows fc (map (fun i => (Z.of_nat (S i) ^ e, 1)) (seq 0 n) ++ [(1, 1)]) (power_coefs fc e n).
Proof.
  intros Hfc. exists 1. split; [lia|]. unfold power_coefs. apply Forall2_app; [|constructor; [cbn; split; [reflexivity|apply Z.divide_0_r]|constructor]].
  induction (seq 0 n) as [|a l IH]; cbn [map]; constructor; [|assumption]. cbn [fst snd]. split; [reflexivity|]. replace (1 + Z.of_nat a) with (Z.of_nat (S a)) by lia.
  destruct (Z.ltb_spec 0 fc) as [P|P]; [|rewrite Z.sub_diag; apply Z.divide_0_r]. exists (Z.quot (Z.of_nat (S a) ^ e) fc). rewrite Z.rem_eq by lia. lia.
Qed.
Theorem C56_shown gh os g0 names s rnd g : (0 < nvars g0)%nat -> 0 <= field_char g0 -> fresh g0 -> rep g0 names s ->
  attempts gh os g0 rnd = Some (true, g) -> linear_form_base_coef g <> 0 -> (~ In Separation os \/ exists os', os = os' ++ [Separation]) ->
  exists cs, rep g (names ++ ["A"%string]) (ext_sys s ++ [linear_form cs]) /\ length cs = S (nvars g0) /\ shows (field_char g0) (shown_form g) cs.
Proof.
  intros Hn Hfc Hf R H L Hos. assert (R' := R). destruct R' as (R1 & R2 & R3 & _). assert (S0 := fresh_ok names s g0 Hn Hf R). destruct Hf as (_ & L0 & Rl0).
  assert (K : (0 < linear_form_base_coef g /\ nvars g = S (nvars g0) /\ field_char g = field_char g0) /\
    (rand_linear g = false /\ with_form g names s (power_coefs (field_char g0) (linear_form_base_coef g - 1) (nvars g0)) \/
     rand_linear g = true /\ with_form g names s (random_coefs (random_linear_form g)) /\ Forall (unit_coef (field_char g0)) (random_linear_form g))).
  { assert (S1 := attempts_ok _ names s (field_char g0) gh os g0 rnd g Hn R2 R3 S0 H). split; [destruct S1 as [F [(Q & _)|(Q & N & _)]]; [contradiction|]; auto|].
    clear S1. clear R1 R. set (n := nvars g0) in *. set (fc := field_char g0) in *. clearbody n fc. destruct Hos as [Hos|(os' & ->)].
    - left. assert (G : forall os g0 rnd, ~ In Separation os -> state_ok n names s fc g0 -> rand_linear g0 = false -> (0 < linear_form_base_coef g0 -> with_form g0 names s (power_coefs fc (linear_form_base_coef g0 - 1) n)) ->
        attempts gh os g0 rnd = Some (true, g) -> rand_linear g = false /\ with_form g names s (power_coefs fc (linear_form_base_coef g - 1) n)).
      { clear - Hn R2 R3 L. induction os as [|o os IH]; intros g0 rnd Hos S0 Rl W H; cbn [attempts] in H.
        - injection H as <-. split; [assumption|]. apply W. destruct S0 as [_ [(Q & _)|(Q & _)]]; [contradiction|assumption].
        - destruct (handle gh o g0 rnd) as [[[b g1] r1]|] eqn:E; [|discriminate]. cbn [obind fst snd] in H. destruct b; [|discriminate].
          destruct (handle_ok n names s fc gh o g0 rnd true g1 r1 Hn R2 R3 S0 E eq_refl) as (S1 & _ & Q). destruct o; [|exfalso; apply Hos; now left].
          destruct (Q eq_refl) as [Q1 Q2]. apply (IH g1 r1); auto; [intros C; apply Hos; now right|congruence]. }
      apply (G os g0 rnd); auto. lia.
    - right. clear L0 Rl0. revert g0 rnd S0 H. induction os' as [|o os IH]; intros g0 rnd S0 H; cbn [app attempts] in H; destruct (handle gh _ g0 rnd) as [[[b g1] r1]|] eqn:E; try discriminate; cbn [obind fst snd] in H; destruct b; try discriminate.
      + injection H as <-. destruct (handle_ok n names s fc gh _ g0 rnd true g1 r1 Hn R2 R3 S0 E eq_refl) as (S1 & Q & _). exact (Q eq_refl).
      + destruct (handle_ok n names s fc gh _ g0 rnd true g1 r1 Hn R2 R3 S0 E eq_refl) as (S1 & _). exact (IH g1 r1 S1 H). }
  destruct K as ((K1 & K2 & K3) & [[K4 [W Lc]]|(K4 & [W Lc] & K5)]); eexists; (split; [exact W|]); (split; [congruence|]); unfold shown_form; rewrite K4, K2; try rewrite K3.
  - replace (0 <? linear_form_base_coef g) with true by (symmetry; apply Z.ltb_lt; lia). replace (S (nvars g0) - 1)%nat with (nvars g0) by lia. now apply shows_powers.
  - apply shows_random; [assumption| |assumption]. unfold random_coefs in Lc. rewrite map_length in Lc. congruence.
Qed.
Print Assumptions C56_shown.

(** ** Examples *)
(** x^2 - 2, x y - 1 (characteristic 0), names x, y. *)
Definition ex_sys : isys := [[((1, 1), [2; 0]); ((-2, 1), [0; 0])]; [((1, 1), [1; 1]); ((-1, 1), [0; 0])]].
Definition ex_gens : gens := mkG 2 ["x"%string; "y"%string] [2%nat; 2%nat] [2; 0; 0; 0; 1; 1; 0; 0] [(1, 1); (-2, 1); (1, 1); (-1, 1)] 0 (-1) 0 false [].
Lemma ex_fresh : fresh ex_gens /\ (0 < nvars ex_gens)%nat /\ rep ex_gens ["x"%string; "y"%string] ex_sys.
Proof.
  split; [repeat split|]. split; [cbn; lia|]. repeat split. intros p [<-|[<-|[]]] t [<-|[<-|[]]]; reflexivity.
Qed.
Example C39_ex : exists g, attempts 2 [Staircase] ex_gens [] = Some (true, g) /\ vnames g = ["y"%string; "x"%string] /\ exps g = [0; 2; 0; 0; 1; 1; 0; 0] /\ reported g [10; 20] = Some [20; 10].
Proof. eexists. vm_compute. repeat split. Qed.
Example C40_ex : exists g, attempts 2 [Staircase; Staircase; Staircase] ex_gens [] = Some (true, g) /\ vnames g = ["x"%string; "y"%string; "A"%string] /\
  rep g ["x"%string; "y"%string; "A"%string] (ext_sys ex_sys ++ [linear_form [(1, 1); (2, 1); (1, 1)]]) /\ reported g [10; 20; 30] = Some [10; 20].
Proof. eexists. split; [vm_compute; reflexivity|]. repeat split. intros p [<-|[<-|[<-|[]]]]; cbn; intros t Ht; repeat (destruct Ht as [<-|Ht]; [reflexivity|]); destruct Ht. Qed.
(** The form shown is not the form of the system when a power form was added after a random form: 3x + 5y + 7A is shown,
    x + 2y + A was used. *)
Theorem C56_stale_refuted : exists os rnd g cs, attempts 2 os ex_gens rnd = Some (true, g) /\ rep g ["x"%string; "y"%string; "A"%string] (ext_sys ex_sys ++ [linear_form cs]) /\
  length cs = 3%nat /\ fst (nth 0 (shown_form g) (0, 1)) * fst (nth 1 cs (0, 1)) <> fst (nth 1 (shown_form g) (0, 1)) * fst (nth 0 cs (0, 1)).
Proof.
  exists [Separation; Staircase], [3; 5; 7]. eexists. exists [(1, 1); (2, 1); (1, 1)]. split; [vm_compute; reflexivity|]. split; [|split; [reflexivity|vm_compute; discriminate]].
  repeat split. intros p [<-|[<-|[<-|[]]]]; cbn; intros t Ht; repeat (destruct Ht as [<-|Ht]; [reflexivity|]); destruct Ht.
Qed.
Print Assumptions C56_stale_refuted.
(** The conversion of the power to a 32-bit integer is undefined after enough attempts. *)
Theorem C40_overflow_refuted : exists os, attempts 2 os ex_gens [] = None.
Proof. exists (repeat Staircase 34). vm_compute. reflexivity. Qed.
Print Assumptions C40_overflow_refuted.
(** Until then nothing goes wrong. *)
Theorem C40_total g0 names s rnd k : (0 < nvars g0)%nat -> fresh g0 -> rep g0 names s -> Z.of_nat (S (nvars g0)) ^ Z.of_nat k < 2 ^ 31 -> exists g, attempts 2 (repeat Staircase k) g0 rnd = Some (true, g).
Proof.
  intros Hn Hf R. assert (R' := R). destruct R' as (R1 & R2 & R3 & _). assert (S0 := fresh_ok names s g0 Hn Hf R). set (n := nvars g0) in *. set (fc := field_char g0) in *.
  intros Hk. assert (G : forall k g, state_ok n names s fc g -> 0 <= linear_form_base_coef g -> Z.of_nat (S n) ^ (linear_form_base_coef g + Z.of_nat k) < 2 ^ 31 -> exists g', attempts 2 (repeat Staircase k) g rnd = Some (true, g')).
  { clear - Hn R2 R3. induction k as [|k IH]; intros g HS L Hb; cbn [repeat attempts]; [eauto|].
    assert (Mon : forall e, 0 <= e -> e <= linear_form_base_coef g + Z.of_nat (S k) -> Z.of_nat (S n) ^ e < 2 ^ 31).
    { intros e E1 E2. eapply Z.le_lt_trans; [apply Z.pow_le_mono_r|exact Hb]; lia. }
    destruct (handle 2 Staircase g rnd) as [[[b g1] r1]|] eqn:E.
    - cbn [obind fst snd]. cbn [handle] in E. destruct (change_ok n names s fc g Hn R2 R3 HS) as (b0 & g2 & E2 & HH). rewrite E2 in E. cbn [obind Z.ltb Z.compare fst snd Z.eqb Pos.eqb] in E.
      destruct HH as [(-> & S1 & L1 & _)|HH].
      + injection E as <- <- <-. apply IH; [assumption|lia|]. apply Mon; lia.
      + replace b0 with false in E by (destruct HH as [(-> & _)|(-> & _)]; reflexivity).
        assert (LL : linear_form_base_coef g2 = linear_form_base_coef g) by (destruct HH as [(_ & _ & Q1 & Q2 & _)|(_ & -> & _)]; congruence).
        destruct (add_linear_form g2) as [[b3 g3]|] eqn:E3; [|discriminate]. cbn [obind fst snd] in E. injection E as <- <- <-.
        assert (FS : (0 < nvars g2)%nat /\ form_stage g2 names s).
        { destruct HH as [(_ & _ & Q1 & Q2 & Q3 & _ & Q4 & _)|(_ & -> & Q)]; [split; [lia|left; auto]|]. destruct HS as [_ [(Q1 & _)|(_ & N & cs & W & D)]]; [lia|]. split; [lia|]. right. split; [assumption|]. split; [lia|]. exists cs. split; [assumption|exact (proj1 D)]. }
        destruct FS as [FS1 FS2]. destruct (add_linear_form_ok g2 names s b3 g3 FS1 FS2 E3) as (-> & _ & _ & Q4 & _).
        assert (S3 : state_ok n names s fc g3).
        { apply (handle_ok n names s fc 2 Staircase g rnd true g3 rnd Hn R2 R3 HS); [|reflexivity]. cbn [handle]. rewrite E2. cbn [obind Z.ltb Z.compare fst snd Z.eqb Pos.eqb].
          replace b0 with false by (destruct HH as [(-> & _)|(-> & _)]; reflexivity). rewrite E3. reflexivity. }
        apply IH; [assumption|lia|]. rewrite Q4, LL. apply Mon; lia.
    - exfalso. cbn [handle] in E. destruct (change_ok n names s fc g Hn R2 R3 HS) as (b0 & g2 & E2 & HH). rewrite E2 in E. cbn [obind Z.ltb Z.compare fst snd Z.eqb Pos.eqb] in E.
      destruct HH as [(-> & _)|HH]; [discriminate|]. replace b0 with false in E by (destruct HH as [(-> & _)|(-> & _)]; reflexivity).
      assert (T : exists r, add_linear_form g2 = Some r).
      { apply (add_linear_form_total g2 names s).
        - destruct HH as [(_ & _ & _ & _ & Q3 & _)|(_ & -> & Q)]; [lia|]. destruct HS as [_ [(Q1 & _)|(_ & N & _)]]; lia.
        - destruct HH as [(_ & _ & Q1 & Q2 & Q3 & _ & Q4 & _)|(_ & -> & Q)]; [left; auto|]. destruct HS as [_ [(Q1 & _)|(_ & N & cs & W & D)]]; [lia|]. right. split; [assumption|]. split; [lia|]. exists cs. split; [assumption|exact (proj1 D)].
        - destruct HH as [(_ & _ & Q1 & Q2 & _)|(_ & -> & Q)]; lia.
        - assert (NO : nvars_old g2 = n).
          { unfold nvars_old. destruct HH as [(_ & _ & Q1 & Q2 & Q3 & _)|(_ & -> & Q)]; [rewrite Q2; exact Q3|]. destruct HS as [_ [(Q1 & _)|(_ & N & _)]]; [lia|].
            replace (linear_form_base_coef g =? 0) with false by (symmetry; apply Z.eqb_neq; lia). lia. }
          rewrite NO. apply Mon; destruct HH as [(_ & _ & Q1 & Q2 & _)|(_ & -> & Q)]; lia. }
      destruct T as ([b3 g3] & T). rewrite T in E. discriminate. }
  apply G; [assumption| |]; destruct Hf as (_ & L0 & _); rewrite L0; [lia|exact Hk].
Qed.
Print Assumptions C40_total.
