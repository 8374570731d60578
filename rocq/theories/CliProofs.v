(** Proofs for the command line. *)
From Coq Require Import ZArith Arith List Bool Ascii Lia.
From Verif Require Import ModInvModel ParseSpec ParseModel ParseProofs CliSpec CliModel.
Import ListNotations.
Open Scope Z_scope.

(** * Numbers *)
Lemma int32_range z : - 2 ^ 31 <= int32 z < 2 ^ 31.
Proof. unfold int32. pose proof (Z.mod_pos_bound (z + 2 ^ 31) (2 ^ 32) ltac:(lia)). lia. Qed.
Lemma holds_int32 z v : holds z v <-> v = int32 (clip z).
Proof.
  unfold holds. fold (clip z). split.
  - intros [R [k E]]. rewrite E in R |- *. unfold int32. replace (clip z + 2 ^ 31) with ((clip z + k * 2 ^ 32 + 2 ^ 31) + (- k) * 2 ^ 32) by lia.
    rewrite Z.mod_add by lia. rewrite Z.mod_small by lia. lia.
  - intros ->. split; [apply int32_range|]. exists (- ((clip z + 2 ^ 31) / 2 ^ 32)). unfold int32. pose proof (Z.div_mod (clip z + 2 ^ 31) (2 ^ 32) ltac:(lia)). lia.
Qed.
Lemma reads_strtol a z : reads a z -> strtol a = clip z.
Proof.
  intros H. destruct H as [b g d t Hb Hd Ht Hg].
  assert (E : strtol (b ++ g ++ d ++ t) = strtol (g ++ d ++ t)). { unfold strtol. rewrite drop_space_app by exact Hb. reflexivity. }
  rewrite E. destruct Hg as [->|[->| ->]]; cbn [app].
  - apply strtol_plain; assumption.
  - unfold dash. rewrite strtol_minus by assumption. reflexivity.
  - rewrite strtol_plus by assumption. reflexivity.
Qed.
Lemma split_digits s : exists d t, s = d ++ t /\ forallb is_digit d = true /\ match t with [] => True | c :: _ => is_digit c = false end.
Proof.
  induction s as [|c s (d & t & E & D & T)]; [exists [], []; repeat split|]. destruct (is_digit c) eqn:Ec.
  - exists (c :: d), t. rewrite E. cbn [app forallb]. rewrite Ec, D. auto.
  - exists [], (c :: s). cbn. auto.
Qed.
Lemma split_space s : exists b t, s = b ++ t /\ forallb is_space b = true /\ drop_space s = t.
Proof.
  induction s as [|c s (b & t & E & B & T)]; [exists [], []; repeat split|]. cbn [drop_space]. destruct (is_space c) eqn:Ec.
  - exists (c :: b), t. split; [rewrite E at 1; reflexivity|]. cbn [forallb]. rewrite Ec, B. auto.
  - exists [], (c :: s). auto.
Qed.
Lemma strtol_cases a : (exists z, reads a z /\ strtol a = clip z) \/ (strtol a = 0 /\ forall z, ~ reads a z).
Proof.
  assert (D : (exists z, reads a z) \/ strtol a = 0).
  { destruct (split_space a) as (b & s & E & B & Ds). unfold strtol. rewrite Ds.
    assert (G : forall g s', g = [] \/ g = [dash] \/ g = ["+"%char] -> s = g ++ s' -> (exists z, reads a z) \/ read_digits 0 s' = 0).
    { intros g s' Hg Es. destruct (split_digits s') as (d & t & E' & D & T). destruct d as [|c d].
      - right. rewrite E'. cbn [app]. apply read_none. exact T.
      - left. eexists. rewrite E, Es, E'. apply (reads_num b g (c :: d) t); auto. split; [discriminate|exact D]. }
    destruct s as [|c r]; [right; reflexivity|]. destruct (Ascii.eqb_spec c "-").
    - subst c. destruct (G [dash] r ltac:(auto) eq_refl) as [H|H]; [left; exact H|right; rewrite H; reflexivity].
    - destruct (Ascii.eqb_spec c "+").
      + subst c. destruct (G ["+"%char] r ltac:(auto) eq_refl) as [H|H]; [left; exact H|right; rewrite H; reflexivity].
      + destruct (G [] (c :: r) ltac:(auto) eq_refl) as [H|H]; [left; exact H|right; rewrite H; reflexivity]. }
  destruct D as [[z Hz]|H]; [left; exists z; split; [exact Hz|apply reads_strtol; exact Hz]|].
  (* no number: zero is also the value of a number, so decide again *)
  destruct (split_space a) as (b & s & E & B & Ds).
  assert (K : forall z, reads a z -> exists z', reads a z' /\ strtol a = clip z') by (intros z Hz; exists z; split; [exact Hz|apply reads_strtol; exact Hz]).
  assert (R : (exists z, reads a z) \/ (forall z, ~ reads a z)).
  { assert (NB : forall b' u, forallb is_space b' = true -> drop_space (b' ++ u) = drop_space u) by (intros; apply drop_space_app; assumption).
    assert (Inv : forall z, reads a z -> exists g d t, s = g ++ d ++ t /\ number d /\ (g = [] \/ g = [dash] \/ g = ["+"%char])).
    { intros z Hz. remember a as a0 eqn:Ea. destruct Hz as [b' g d t Hb Hd Ht Hg]. exists g, d, t. split; [|auto]. rewrite <- Ds. rewrite NB by exact Hb.
      destruct Hd as [Nd Dd]. destruct d as [|c d]; [congruence|]. cbn [forallb] in Dd. apply andb_true_iff in Dd as [Dc _].
      destruct Hg as [->|[->| ->]]; cbn [app]; apply drop_space_id; [apply digit_nospace; exact Dc|reflexivity|reflexivity]. }
    assert (W : forall g s', g = [] \/ g = [dash] \/ g = ["+"%char] -> s = g ++ s' -> match s' with c :: _ => is_digit c = true | [] => False end -> exists z, reads a z).
    { intros g s' Hg Es Hs. destruct (split_digits s') as (d & t & E' & D & T). eexists. rewrite E, Es, E'. apply (reads_num b g d t); auto. split; [|exact D].
      intros ->. cbn [app] in E'. subst t. destruct s' as [|c s']; [exact Hs|]. congruence. }
    destruct s as [|c r].
    - right. intros z Hz. destruct (Inv z Hz) as (g & d & t & E' & [Nd _] & _). destruct g; [|discriminate]. destruct d; [congruence|discriminate].
    - destruct (is_digit c) eqn:Ec; [left; apply (W [] (c :: r)); auto|].
      assert (Q : forall g d t, c :: r = g ++ d ++ t -> number d -> g = [] \/ g = [dash] \/ g = ["+"%char] -> (c = "-"%char \/ c = "+"%char) /\ match r with x :: _ => is_digit x = true | [] => False end).
      { intros g d t E' [Nd Dd] Hg. destruct d as [|x d]; [congruence|]. cbn [forallb] in Dd. apply andb_true_iff in Dd as [Dx _].
        destruct Hg as [->|[->| ->]]; cbn [app] in E'; injection E'; intros; subst; [congruence|auto|auto]. }
      destruct r as [|x r]; [right; intros z Hz; destruct (Inv z Hz) as (g & d & t & E' & Nd & Hg); destruct (Q g d t E' Nd Hg) as [_ []]|].
      destruct (is_digit x) eqn:Ex.
      + destruct (Ascii.eqb_spec c "-"); [left; apply (W [dash] (x :: r)); [auto|subst c; reflexivity|exact Ex]|].
        destruct (Ascii.eqb_spec c "+"); [left; apply (W ["+"%char] (x :: r)); [auto|subst c; reflexivity|exact Ex]|].
        right. intros z Hz. destruct (Inv z Hz) as (g & d & t & E' & Nd & Hg). destruct (Q g d t E' Nd Hg) as [[?|?] _]; congruence.
      + right. intros z Hz. destruct (Inv z Hz) as (g & d & t & E' & Nd & Hg). destruct (Q g d t E' Nd Hg) as [_ ?]. congruence. }
  destruct R as [[z Hz]|N]; [left; apply (K z Hz)|right; auto].
Qed.
Lemma value_num a v : value a v <-> v = num a.
Proof.
  unfold value, num. split.
  - intros [(z & Hz & Hv)|[N ->]].
    + rewrite (reads_strtol a z Hz). apply holds_int32, Hv.
    + destruct (strtol_cases a) as [(z & Hz & _)|[E _]]; [destruct (N z Hz)|]. rewrite E. reflexivity.
  - intros ->. destruct (strtol_cases a) as [(z & Hz & E)|[E N]].
    + left. exists z. split; [exact Hz|]. apply holds_int32. rewrite E. reflexivity.
    + right. split; [exact N|]. rewrite E. reflexivity.
Qed.

(** * getopt *)
Lemma kind_flags c : In c flags <-> option_kind c = Some false.
Proof.
  split; [intros H; repeat (destruct H as [<-|H]; [reflexivity|]); destruct H|].
  unfold option_kind. destruct (Ascii.eqb_spec c ":"); [discriminate|]. unfold options. cbn [lookup].
  repeat match goal with |- context [if Ascii.eqb ?x c then _ else _] => destruct (Ascii.eqb_spec x c); [subst c; try (cbn; tauto); try congruence; intros H; cbv in H; discriminate H|] end.
  discriminate.
Qed.
Lemma kind_takes c : In c takes <-> option_kind c = Some true.
Proof.
  split; [intros H; repeat (destruct H as [<-|H]; [reflexivity|]); destruct H|].
  unfold option_kind. destruct (Ascii.eqb_spec c ":"); [discriminate|]. unfold options. cbn [lookup].
  repeat match goal with |- context [if Ascii.eqb ?x c then _ else _] => destruct (Ascii.eqb_spec x c); [subst c; try (cbn; tauto); try congruence; intros H; cbv in H; discriminate H|] end.
  discriminate.
Qed.
(** the words left and the occurrences after the letters of a word *)
Definition pend_occ (p : option ascii) (r : list str) : list occ * list str :=
  match p with None => ([], r) | Some c => match r with [] => ([Bad], []) | a :: r' => ([Opt c a], r') end end.
Lemma letters_cluster s r : cluster s r (fst (letters s) ++ fst (pend_occ (snd (letters s)) r)) (snd (pend_occ (snd (letters s)) r)).
Proof.
  induction s as [|c s IH]; [constructor|]. cbn [letters]. destruct (option_kind c) as [[]|] eqn:K.
  - apply kind_takes in K. destruct s as [|x s].
    + cbn [fst snd app]. destruct r as [|a r]; cbn [pend_occ fst snd]; [apply cl_none|apply cl_next]; exact K.
    + cbn [fst snd pend_occ]. rewrite app_nil_r. apply cl_here; [exact K|discriminate].
  - apply kind_flags in K. destruct (letters s) as [l p]. cbn [fst snd] in IH |- *. cbn [app]. apply cl_flag; assumption.
  - destruct (letters s) as [l p]. cbn [fst snd] in IH |- *. cbn [app]. apply cl_bad; [intros F; apply kind_flags in F; congruence|intros F; apply kind_takes in F; congruence|exact IH].
Qed.
Lemma cluster_unique s r l r' : cluster s r l r' -> l = fst (letters s) ++ fst (pend_occ (snd (letters s)) r) /\ r' = snd (pend_occ (snd (letters s)) r).
Proof.
  induction 1 as [r|c s r l r' F H [IH1 IH2]|c s r l r' F T H [IH1 IH2]|c s r T N|c a r T|c T]; cbn [letters].
  - split; reflexivity.
  - apply kind_flags in F. rewrite F. destruct (letters s) as [l0 p]. cbn [fst snd] in *. cbn [app]. rewrite IH1, IH2. split; reflexivity.
  - assert (K : option_kind c = None). { destruct (option_kind c) as [[]|] eqn:K; [apply kind_takes in K; contradiction|apply kind_flags in K; contradiction|reflexivity]. }
    rewrite K. destruct (letters s) as [l0 p]. cbn [fst snd] in *. cbn [app]. rewrite IH1, IH2. split; reflexivity.
  - apply kind_takes in T. rewrite T. destruct s as [|x s]; [congruence|]. split; reflexivity.
  - apply kind_takes in T. rewrite T. split; reflexivity.
  - apply kind_takes in T. rewrite T. split; reflexivity.
Qed.
Lemma getopt_pend p r : getopt p r = fst (pend_occ p r) ++ getopt None (snd (pend_occ p r)).
Proof. destruct p as [c|]; [|reflexivity]. destruct r as [|a r]; reflexivity. Qed.
Lemma getopt_word s r : s <> [] -> s <> [dash] -> getopt None ((dash :: s) :: r) = fst (letters s) ++ getopt (snd (letters s)) r.
Proof.
  intros N D. destruct s as [|y s]; [congruence|]. cbn [getopt]. unfold dash at 1. rewrite Ascii.eqb_refl.
  destruct (Ascii.eqb_spec y "-").
  - destruct s as [|z s]; [subst y; destruct D; reflexivity|]. cbn [andb]. destruct (letters (y :: z :: s)). reflexivity.
  - cbn [andb]. destruct (letters (y :: s)). reflexivity.
Qed.
Lemma getopt_operand a r : (forall s, a = dash :: s -> s = []) -> getopt None (a :: r) = getopt None r.
Proof.
  intros H. cbn [getopt]. destruct a as [|x [|y s]]; try reflexivity. destruct (Ascii.eqb_spec x "-"); [|reflexivity]. subst x. specialize (H _ eq_refl). discriminate.
Qed.
Lemma pend_left p (r : list str) : (List.length (snd (pend_occ p r)) <= List.length r)%nat.
Proof. destruct p; [|cbn; lia]. destruct r; cbn; lia. Qed.
Lemma getopt_words n : forall args, (List.length args <= n)%nat -> words args (getopt None args).
Proof.
  induction n as [|n IH]; intros args L; [destruct args; [constructor|cbn in L; lia]|]. destruct args as [|a r]; [constructor|]. cbn [List.length] in L.
  destruct a as [|x s].
  - rewrite getopt_operand by discriminate. apply w_operand; [discriminate|apply IH; lia].
  - destruct (Ascii.eqb_spec x dash).
    + subst x. destruct s as [|y s].
      * rewrite getopt_operand by (intros s E; injection E; auto). apply w_operand; [intros s E; injection E; auto|apply IH; lia].
      * destruct (list_eq_dec ascii_dec (y :: s) [dash]) as [E|E].
        { rewrite E. cbn [getopt]. unfold dash. rewrite Ascii.eqb_refl. cbn [andb]. apply w_stop. }
        rewrite getopt_word by (auto; discriminate). rewrite getopt_pend, app_assoc. eapply w_option; [discriminate|exact E|apply letters_cluster|].
        apply IH. pose proof (pend_left (snd (letters (y :: s))) r). lia.
    + rewrite getopt_operand by (intros s' E; injection E; intros; subst; congruence). apply w_operand; [intros s' E; injection E; intros; subst; congruence|apply IH; lia].
Qed.
Lemma words_unique args l : words args l -> l = getopt None args.
Proof.
  induction 1 as [|r|a r l H W IH|s r l r' l' N D C W IH].
  - reflexivity.
  - cbn [getopt]. unfold dash. rewrite Ascii.eqb_refl. reflexivity.
  - rewrite getopt_operand by exact H. exact IH.
  - rewrite getopt_word by assumption. rewrite getopt_pend, app_assoc. apply cluster_unique in C as [-> ->]. rewrite IH. reflexivity.
Qed.
Definition occ_ok (x : occ) : Prop := match x with Bad => True | Flag c => In c flags | Opt c _ => In c takes end.
Lemma cluster_ok s r l r' : cluster s r l r' -> Forall occ_ok l.
Proof. induction 1; try (apply Forall_nil); apply Forall_cons; cbn [occ_ok]; auto. Qed.
Lemma words_ok args l : words args l -> Forall occ_ok l.
Proof. induction 1 as [|r|a r l H W IH|s r l r' l' N D C W IH]; [constructor|constructor|exact IH|apply Forall_app; split; [eapply cluster_ok; exact C|exact IH]]. Qed.

(** * The loop *)
Definition is_opt (c : ascii) (x : occ) : option str := match x with Opt c' a => if Ascii.eqb c' c then Some a else None | _ => None end.
Fixpoint lastf (c : ascii) (l : list occ) : option str :=
  match l with [] => None | x :: r => match lastf c r with Some a => Some a | None => is_opt c x end end.
Lemma lastf_none c l : lastf c l = None -> last_arg c l None.
Proof.
  induction l as [|x l IH]; intros H b B; [destruct B|]. cbn [lastf] in H. destruct (lastf c l) eqn:E; [discriminate|].
  destruct B as [->|B]; [cbn in H; rewrite Ascii.eqb_refl in H; discriminate|]. exact (IH eq_refl b B).
Qed.
Lemma lastf_some c l a : lastf c l = Some a -> last_arg c l (Some a).
Proof.
  induction l as [|x l IH]; intros H; [discriminate|]. cbn [lastf] in H. destruct (lastf c l) as [a'|] eqn:E.
  - injection H as ->. destruct (IH eq_refl) as (l1 & l2 & -> & N). exists (x :: l1), l2. split; [reflexivity|exact N].
  - destruct x as [|c'|c' b]; try discriminate. cbn in H. destruct (Ascii.eqb_spec c' c); [|discriminate]. injection H as ->. subst c'. exists [], l. split; [reflexivity|].
    apply lastf_none, E.
Qed.
Lemma lastf_last c l : last_arg c l (lastf c l).
Proof. destruct (lastf c l) eqn:E; [apply lastf_some|apply lastf_none]; exact E. Qed.
Lemma last_unique c l a : last_arg c l a -> a = lastf c l.
Proof.
  destruct a as [t|].
  - intros (l1 & l2 & -> & N). assert (E2 : lastf c l2 = None). { destruct (lastf c l2) as [b|] eqn:E; [|reflexivity]. apply lastf_some in E as (m1 & m2 & -> & _). destruct (N b). apply in_or_app. right. left. reflexivity. }
    induction l1 as [|x l1 IH]; cbn [app lastf]; [rewrite E2; cbn; rewrite Ascii.eqb_refl; reflexivity|]. rewrite <- IH. reflexivity.
  - intros N. destruct (lastf c l) as [b|] eqn:E; [|reflexivity]. apply lastf_some in E as (m1 & m2 & -> & _). destruct (N b). apply in_or_app. right. left. reflexivity.
Qed.
Definition is_occ (c : ascii) (x : occ) : bool := match x with Bad => false | Flag c' => Ascii.eqb c' c | Opt c' _ => Ascii.eqb c' c end.
Lemma occurs_b c l : existsb (is_occ c) l = true <-> occurs c l.
Proof.
  rewrite existsb_exists. unfold occurs. split.
  - intros ([|c'|c' a] & H & E); cbn in E; [discriminate| |]; apply Ascii.eqb_eq in E; subst c'; [left; exact H|right; exists a; exact H].
  - intros [H|[a H]]; eexists; (split; [exact H|]); cbn; apply Ascii.eqb_refl.
Qed.
Definition normal (lo below hi above x : Z) : Z := if x <? lo then below else if hi <? x then above else x.
(** the value of a setting after the occurrences [l], from the value [z0] *)
Definition final (v : var) (z0 : Z) (l : list occ) : Z :=
  match kind_of v with
  | Num c _ lo below hi above => match lastf c l with None => z0 | Some a => normal lo below hi above (num a) end
  | Switch c => if existsb (is_occ c) l then 1 else z0
  end.
Lemma num_any a : (num a <? - 2 ^ 31) = false /\ (2 ^ 31 - 1 <? num a) = false.
Proof. unfold num. pose proof (int32_range (strtol a)). lia. Qed.
Lemma step_flag x c v : In c flags -> c <> "h"%char -> c <> "V"%char ->
  loop x [Flag c] = inr (set_val x (if Ascii.eqb c "i" then v_gb else if Ascii.eqb c "S" then v_sat else v_colon) 1) /\
  vals (set_val x (if Ascii.eqb c "i" then v_gb else if Ascii.eqb c "S" then v_sat else v_colon) 1) v = final v (vals x v) [Flag c].
Proof. intros H N1 N2. repeat (destruct H as [<-|H]; [first [congruence | split; [reflexivity|destruct v; reflexivity]]|]). destruct H. Qed.
Lemma step_opt x c a v : In c takes -> vals (with_arg x c a) v = final v (vals x v) [Opt c a].
Proof.
  intros H. destruct (num_any a) as [Na Nb]. unfold final.
  repeat (destruct H as [<-|H]; [destruct v; cbn -[num Z.pow Z.ltb Z.leb]; unfold upd, normal; cbn -[num Z.pow Z.ltb Z.leb]; rewrite ?Na, ?Nb; try reflexivity;
    repeat match goal with |- context [if ?b then _ else _] => destruct b eqn:? end; try reflexivity; try lia|]).
  destruct H.
Qed.
Lemma final_cons v z x l : final v z (x :: l) = final v (final v z [x]) l.
Proof.
  unfold final. destruct (kind_of v) as [c d lo be hi ab|c]; cbn [lastf existsb].
  - destruct (lastf c l); reflexivity.
  - rewrite orb_false_r. destruct (is_occ c x); cbn [orb]; [destruct (existsb (is_occ c) l); reflexivity|reflexivity].
Qed.
Definition stopb (x : occ) : bool := match x with Flag c => Ascii.eqb c "h" || Ascii.eqb c "V" | _ => false end.
Definition has_bad (x : occ) : bool := match x with Bad => true | _ => false end.
Definition has_file (x : occ) : bool := match x with Opt c _ => Ascii.eqb c "f" || Ascii.eqb c "F" | _ => false end.
Definition over (a b : option str) : option str := match a with Some x => Some x | None => b end.
Lemma loop_inr l : Forall occ_ok l -> forallb (fun x => negb (stopb x)) l = true -> forall x, exists y, loop x l = inr y /\
  (forall v, vals y v = final v (vals x v) l) /\ (errflag y = errflag x + List.length (filter has_bad l))%nat /\ fflag y = fflag x && negb (existsb has_file l) /\
  nms y = {| f_in := over (lastf "f" l) (f_in (nms x)); f_bin := over (lastf "F" l) (f_bin (nms x)); f_out := over (lastf "o" l) (f_out (nms x)); f_bout := over (lastf "O" l) (f_bout (nms x)) |}.
Proof.
  induction l as [|o l IH]; intros OK ST x.
  - exists x. cbn [loop]. split; [reflexivity|]. split; [intros v; unfold final; destruct (kind_of v); reflexivity|]. cbn. split; [lia|]. split; [rewrite andb_true_r; reflexivity|]. destruct (nms x); reflexivity.
  - inversion OK as [|? ? O1 O2]; subst. cbn [forallb] in ST. apply andb_true_iff in ST as [S1 S2].
    assert (K : forall x', loop x (o :: l) = loop x' l -> (forall v, vals x' v = final v (vals x v) [o]) -> (errflag x' = errflag x + List.length (filter has_bad [o]))%nat ->
      fflag x' = fflag x && negb (has_file o) -> nms x' = {| f_in := over (is_opt "f" o) (f_in (nms x)); f_bin := over (is_opt "F" o) (f_bin (nms x)); f_out := over (is_opt "o" o) (f_out (nms x)); f_bout := over (is_opt "O" o) (f_bout (nms x)) |} ->
      exists y, loop x (o :: l) = inr y /\ (forall v, vals y v = final v (vals x v) (o :: l)) /\ (errflag y = errflag x + List.length (filter has_bad (o :: l)))%nat /\ fflag y = fflag x && negb (existsb has_file (o :: l)) /\
      nms y = {| f_in := over (lastf "f" (o :: l)) (f_in (nms x)); f_bin := over (lastf "F" (o :: l)) (f_bin (nms x)); f_out := over (lastf "o" (o :: l)) (f_out (nms x)); f_bout := over (lastf "O" (o :: l)) (f_bout (nms x)) |}).
    { intros x' E1 E2 E3 E4 E5. destruct (IH O2 S2 x') as (y & Y1 & Y2 & Y3 & Y4 & Y5). exists y. split; [rewrite E1; exact Y1|]. split; [intros v; rewrite Y2, E2; symmetry; apply final_cons|].
      split; [rewrite Y3, E3; cbn [filter]; destruct (has_bad o); cbn [List.length]; lia|]. split; [rewrite Y4, E4; cbn [existsb]; rewrite negb_orb, andb_assoc; reflexivity|].
      rewrite Y5, E5. cbn [lastf f_in f_bin f_out f_bout]. destruct (lastf "f" l), (lastf "F" l), (lastf "o" l), (lastf "O" l); reflexivity. }
    destruct o as [|c|c a].
    + apply (K (bad x)); [reflexivity|intros v; unfold final; destruct (kind_of v); reflexivity|cbn; lia|cbn; rewrite andb_true_r; reflexivity|cbn; destruct (nms x); reflexivity].
    + cbn in S1. apply negb_true_iff, orb_false_iff in S1 as [S1 S1']. apply Ascii.eqb_neq in S1, S1'. cbn [occ_ok] in O1.
      apply (K (set_val x (if Ascii.eqb c "i" then v_gb else if Ascii.eqb c "S" then v_sat else v_colon) 1)).
      * repeat (destruct O1 as [<-|O1]; [try congruence; reflexivity|]). destruct O1.
      * intros v. apply step_flag; assumption.
      * cbn. lia.
      * cbn. rewrite andb_true_r. reflexivity.
      * cbn. destruct (nms x); reflexivity.
    + cbn [occ_ok] in O1. apply (K (with_arg x c a)); [reflexivity|intros v; apply step_opt; exact O1| | |].
      * repeat (destruct O1 as [<-|O1]; [cbn; lia|]). destruct O1.
      * repeat (destruct O1 as [<-|O1]; [cbn; rewrite ?andb_true_r, ?andb_false_r; reflexivity|]). destruct O1.
      * repeat (destruct O1 as [<-|O1]; [cbn; destruct (nms x); reflexivity|]). destruct O1.
Qed.
Lemma loop_stop l1 c l2 : Forall occ_ok l1 -> forallb (fun x => negb (stopb x)) l1 = true -> c = "h"%char \/ c = "V"%char -> forall x,
  loop x (l1 ++ Flag c :: l2) = inl (if Ascii.eqb c "h" then Help else Version).
Proof.
  intros OK ST Hc. assert (A : forall l x y, loop x l = inr y -> forall r, loop x (l ++ r) = loop y r).
  { intros l. induction l as [|o l IH]; intros x y E r; cbn [loop app] in *; [injection E as ->; reflexivity|]. destruct o as [|c'|c' a]; cbn [loop] in *; try (apply IH; exact E).
    repeat (match goal with |- context [if ?b then _ else _] => destruct b end; try discriminate; try (apply IH; exact E)). }
  intros x. destruct (loop_inr l1 OK ST x) as (y & E & _). rewrite (A _ _ _ E). destruct Hc as [->| ->]; reflexivity.
Qed.
Lemma first_stop l : (forallb (fun x => negb (stopb x)) l = true) \/ exists l1 c l2, l = l1 ++ Flag c :: l2 /\ (c = "h"%char \/ c = "V"%char) /\ forallb (fun x => negb (stopb x)) l1 = true.
Proof.
  induction l as [|x l IH]; [left; reflexivity|]. destruct (stopb x) eqn:E.
  - right. destruct x as [|c|c a]; try discriminate. exists [], c, l. split; [reflexivity|]. split; [|reflexivity]. cbn in E. apply orb_true_iff in E as [E|E]; apply Ascii.eqb_eq in E; auto.
  - cbn [forallb]. rewrite E. destruct IH as [H|(l1 & c & l2 & -> & Hc & H)]; [left; exact H|right]. exists (x :: l1), c, l2. split; [reflexivity|]. split; [exact Hc|]. cbn [forallb]. rewrite E. exact H.
Qed.
Lemma no_stop l : forallb (fun x => negb (stopb x)) l = true <-> forall x, In x l -> ~ (x = Flag "h" \/ x = Flag "V").
Proof.
  rewrite forallb_forall. split; intros H x Hx.
  - intros [->| ->]; specialize (H _ Hx); discriminate.
  - apply negb_true_iff. destruct x as [|c|c a]; try reflexivity. cbn. apply orb_false_iff. split; apply Ascii.eqb_neq; intros ->; apply (H _ Hx); auto.
Qed.
Lemma setting_final v l z : setting v l z <-> z = final v (defaults v) l.
Proof.
  unfold setting, final. destruct (kind_of v) as [c d lo be hi ab|c] eqn:K.
  - assert (D : defaults v = d) by (destruct v; cbn in K; try discriminate K; injection K; intros; subst; reflexivity). split.
    + intros [[N ->]|(t & x & L & V & H)].
      * rewrite <- (last_unique c l None N). symmetry. exact D.
      * rewrite <- (last_unique c l (Some t) L). apply value_num in V. subst x. unfold normal.
        assert (lo <= hi) by (destruct v; cbn in K; try discriminate K; injection K; intros; subst; lia).
        destruct (Z.ltb_spec (num t) lo), (Z.ltb_spec hi (num t)); lia.
    + intros ->. pose proof (lastf_last c l) as L. destruct (lastf c l) as [t|].
      * right. exists t, (num t). split; [exact L|]. split; [apply value_num; reflexivity|]. unfold normal. destruct (Z.ltb_spec (num t) lo), (Z.ltb_spec hi (num t)); lia.
      * left. auto.
  - assert (D : defaults v = 0) by (destruct v; cbn in K; try discriminate; reflexivity). rewrite D. pose proof (occurs_b c l) as B. destruct (existsb (is_occ c) l); split.
    + intros [[_ H]|[H _]]; [exact H|destruct H; apply B; reflexivity].
    + intros ->. left. split; [apply B; reflexivity|reflexivity].
    + intros [[H _]|[_ H]]; [apply B in H; discriminate|exact H].
    + intros ->. right. split; [|reflexivity]. intros H. apply B in H. discriminate.
Qed.
Lemma has_file_in l : existsb has_file l = true <-> exists a, In (Opt "f" a) l \/ In (Opt "F" a) l.
Proof.
  rewrite existsb_exists. split.
  - intros ([|c|c a] & H & E); try discriminate. exists a. cbn in E. apply orb_true_iff in E as [E|E]; apply Ascii.eqb_eq in E; subst c; auto.
  - intros (a & [H|H]); eexists; (split; [exact H|reflexivity]).
Qed.
Lemma bad_in l : List.length (filter has_bad l) = 0%nat <-> ~ In Bad l.
Proof.
  split.
  - intros H B. assert (In Bad (filter has_bad l)) by (apply filter_In; auto). destruct (filter has_bad l); [contradiction|discriminate].
  - intros H. induction l as [|x l IH]; [reflexivity|]. cbn [filter]. destruct x; cbn [has_bad]; [destruct H; left; reflexivity| |]; apply IH; intros B; apply H; right; exact B.
Qed.

Lemma asks_getoptions args l : words args l -> asks l (getoptions args).
Proof.
  intros W. pose proof (words_ok _ _ W) as OK. unfold getoptions. rewrite <- (words_unique _ _ W). clear W. destruct (first_stop l) as [ST|(l1 & c & l2 & -> & Hc & ST)].
  - destruct (loop_inr l OK ST st0) as (y & E & V & Er & Fl & Nm). rewrite E. cbn [errflag st0 fflag andb] in Er, Fl. rewrite Fl. pose proof (proj1 (no_stop l) ST) as NS.
    destruct (existsb has_file l) eqn:F; cbn [negb].
    + pose proof (proj1 (has_file_in l) F) as HF. rewrite Er. cbn [plus]. destruct (List.length (filter has_bad l)) eqn:B.
      * apply bad_in in B. cbn [asks]. split; [exact NS|]. split; [exact HF|]. split; [exact B|]. split; [intros v; apply setting_final; rewrite V; reflexivity|].
        rewrite Nm. cbn [st0 nms f_in f_bin f_out f_bout]. unfold named. cbn [f_in f_bin f_out f_bout]. unfold over.
        repeat split; match goal with |- last_arg ?c l _ => pose proof (lastf_last c l) as L; destruct (lastf c l); exact L end.
      * cbn [asks]. split; [exact NS|]. split; [exact HF|]. destruct (in_dec (fun a b : occ => ltac:(repeat decide equality)) Bad l) as [H|H]; [exact H|]. apply bad_in in H. lia.
    + cbn [asks]. split; [exact NS|]. split; intros b B; enough (existsb has_file l = true) by congruence; apply has_file_in; exists b; auto.
  - apply Forall_app in OK as [O1 _]. rewrite (loop_stop l1 c l2 O1 ST Hc). pose proof (proj1 (no_stop l1) ST) as NS. destruct Hc as [->| ->]; cbn; exists l1, l2; auto.
Qed.

(** * What is asked for is determined *)
Definition same_asked (o o' : asked) : Prop := match o, o' with Run s f, Run s' f' => (forall v, s v = s' v) /\ f = f' | _, _ => o = o' end.
Lemma app_first (l1 : list occ) x l2 m1 y m2 : l1 ++ x :: l2 = m1 ++ y :: m2 -> stopb x = true -> stopb y = true ->
  (forall z, In z l1 -> stopb z = false) -> (forall z, In z m1 -> stopb z = false) -> x = y.
Proof.
  revert m1. induction l1 as [|a l1 IH]; intros m1 E Sx Sy N1 N2; destruct m1 as [|b m1]; cbn [app] in E; injection E as E1 E2.
  - exact E1.
  - subst b. rewrite (N2 x) in Sx by (left; reflexivity). discriminate.
  - subst a. rewrite (N1 y) in Sy by (left; reflexivity). discriminate.
  - apply (IH m1 E2 Sx Sy); intros z Hz; [apply N1|apply N2]; right; exact Hz.
Qed.
Lemma stop_false x : ~ (x = Flag "h" \/ x = Flag "V") -> stopb x = false.
Proof. intros H. destruct (stopb x) eqn:E; [|reflexivity]. destruct H. destruct x as [|c|c a]; try discriminate. cbn in E. apply orb_true_iff in E as [E|E]; apply Ascii.eqb_eq in E; subst c; auto. Qed.
Lemma asks_unique l o o' : asks l o -> asks l o' -> same_asked o o'.
Proof.
  assert (FS : forall x l1 l2, l = l1 ++ x :: l2 -> x = Flag "h" \/ x = Flag "V" -> (forall y, In y l -> ~ (y = Flag "h" \/ y = Flag "V")) -> False).
  { intros x l1 l2 E Hx H. apply (H x); [rewrite E; apply in_or_app; right; left; reflexivity|exact Hx]. }
  assert (HV : forall l1 l2 m1 m2, l = l1 ++ Flag "h" :: l2 -> l = m1 ++ Flag "V" :: m2 -> (forall y, In y l1 -> ~ (y = Flag "h" \/ y = Flag "V")) -> (forall y, In y m1 -> ~ (y = Flag "h" \/ y = Flag "V")) -> False).
  { intros l1 l2 m1 m2 E E' N1 N2. rewrite E in E'. assert (Q : Flag "h" = Flag "V") by (apply (app_first _ _ _ _ _ _ E'); [reflexivity|reflexivity|intros z Hz; apply stop_false; auto|intros z Hz; apply stop_false; auto]). discriminate Q. }
  assert (NF : last_arg "f" l None -> last_arg "F" l None -> (exists a, In (Opt "f" a) l \/ In (Opt "F" a) l) -> False).
  { intros A B (a & [H|H]); [apply (A a H)|apply (B a H)]. }
  destruct o as [| | | |s f], o' as [| | | |s' f']; cbn [asks same_asked]; intros H H'; try reflexivity;
    try (destruct H as (l1 & l2 & E & N), H' as (m1 & m2 & E' & N'); exfalso; eapply HV; eassumption);
    try (destruct H as (l1 & l2 & E & N), H' as (N' & _); exfalso; eapply FS; [exact E|auto|exact N']);
    try (destruct H' as (l1 & l2 & E & N), H as (N' & _); exfalso; eapply FS; [exact E|auto|exact N']).
  - destruct H as (_ & A & B), H' as (_ & C & _). destruct (NF A B C).
  - destruct H as (_ & A & B), H' as (_ & C & _). destruct (NF A B C).
  - destruct H' as (_ & A & B), H as (_ & C & _). destruct (NF A B C).
  - destruct H as (_ & _ & A), H' as (_ & _ & B & _). contradiction.
  - destruct H' as (_ & A & B), H as (_ & C & _). destruct (NF A B C).
  - destruct H' as (_ & _ & A), H as (_ & _ & B & _). contradiction.
  - destruct H as (_ & _ & _ & A & B), H' as (_ & _ & _ & A' & B'). split.
    + intros v. pose proof (proj1 (setting_final _ _ _) (A v)) as E1. pose proof (proj1 (setting_final _ _ _) (A' v)) as E2. congruence.
    + destruct B as (b1 & b2 & b3 & b4), B' as (c1 & c2 & c3 & c4). apply last_unique in b1, b2, b3, b4, c1, c2, c3, c4. destruct f, f'; cbn in *. congruence.
Qed.
