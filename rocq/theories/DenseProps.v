(** C65: dense storage of the images of a Groebner basis, and export over the rationals. *)
From Coq Require Import NArith ZArith Arith List Bool Lia Sorted.
From Verif Require Import MonoSpec MonoProps HilbSpec HilbModel HilbProofs HilbProps ModInvModel MonoModel FglmModel PrintSpec PrintModel PrintProofs DenseSpec DenseModel DenseProofs DenseRun.
Import ListNotations.
Open Scope nat_scope.
Opaque monomial_basis_enlarged.

Lemma ex_le_deg (m : mono) i : (ex m i <= mdeg m)%N.
Proof. unfold ex. revert i. induction m as [|x m IH]; intros [|i]; cbn [nth mdeg fold_right]; try lia. specialize (IH i). unfold mdeg in IH. lia. Qed.
Lemma sorted_last (l : list mono) d : StronglySorted drl_lt l -> forall x, In x l -> (mdeg x <= mdeg (last l d))%N.
Proof.
  induction 1 as [|a l H IH F]; intros x []; [subst a|]; destruct l as [|b l].
  - reflexivity.
  - rewrite Forall_forall in F. assert (A : (mdeg x <= mdeg b)%N) by (destruct (F b (or_introl eq_refl)) as [Q|[Q _]]; lia). specialize (IH b (or_introl eq_refl)). change (last (x :: b :: l) d) with (last (b :: l) d). lia.
  - destruct H0.
  - change (last (a :: b :: l) d) with (last (b :: l) d). apply IH. exact H0.
Qed.
Lemma num_gb nev (B : list poly) (D : list mono) : Forall (fun m => exists x, In x (firstn nev m) /\ x <> 0%N) D ->
  compute_num_gb (map (fun f => mone nev ++ lead f) B ++ D) nev = length B.
Proof.
  intros HD. induction B as [|f B IH]; cbn [map app compute_num_gb length].
  - destruct HD as [|m D (x & Hx & Nx) _]; [reflexivity|]. cbn [compute_num_gb]. replace (existsb _ _) with true; [reflexivity|]. symmetry. apply existsb_exists. exists x. split; [exact Hx|]. apply negb_true_iff. apply N.eqb_neq. exact Nx.
  - rewrite firstn_app. unfold mone at 1 2. rewrite repeat_length, Nat.sub_diag. cbn [firstn]. rewrite app_nil_r, firstn_all2 by (rewrite repeat_length; lia).
    destruct (existsb _ (repeat 0%N nev)) eqn:E; [|f_equal; exact IH]. apply existsb_exists in E as (x & Hx & E). apply repeat_spec in Hx. subst x. discriminate.
Qed.
Lemma deg_nonzero (l : list N) : mdeg l <> 0%N -> exists x, In x l /\ x <> 0%N.
Proof.
  induction l as [|x l IH]; [cbn; congruence|]. change (mdeg (x :: l)) with (x + mdeg l)%N. intros H. destruct (N.eq_dec x 0) as [->|NE]; [|exists x; split; [left; reflexivity|exact NE]]. destruct IH as (y & Hy & Ny); [lia|]. exists y. split; [right; exact Hy|exact Ny].
Qed.

(** For reduced bases (degree reverse lexicographic; with an elimination of the first nev variables, the part in the other variables), computed modulo p0 and
    then modulo other primes: the storage never fails and never leaves its arrays; the primes kept are p0 and those whose basis has the same leading
    monomials; and for each of them the stored vectors stand for the polynomials of that basis. This holds for whatever value [junk] the field dlift->S has
    before its initialisation, except that, for the third prime kept and the polynomials before number junk, entries for coefficients that are 0 may
    be uninitialised memory. *)
Theorem C65_images nv nev nthrds junk p0 B0 D0 l ls L fuel : nev < nv -> 1 <= nthrds -> B0 <> [] -> reduced (nv - nev) B0 -> Forall (dropped nv nev) D0 ->
  (mdeg (last (map lead B0) []) < i32_max)%N -> HilbSpec.lists (fun m => standard (nv - nev) (map lead B0) m /\ (mdeg m <= mdeg (last (map lead B0) []))%N) L ->
  (N.of_nat ((nv - nev) * length L) <= i32_max)%N -> length L < fuel ->
  Forall2 (answers nv nev) l ls ->
  let kept_primes := (p0, B0) :: taken (map lead B0) ls in
  exists mb s, images fuel nv nev nthrds junk p0 (map (kept nev) B0 ++ D0) l = Some (map lead B0, mb, s) /\ StronglySorted drl_lt mb /\
    s_np s = length kept_primes /\ firstn (s_np s) (s_primes s) = map fst kept_primes /\ length (s_pols s) = length B0 /\
    forall k p B i g f, nth_error kept_primes k = Some (p, B) -> nth_error B i = Some g -> nth_error (s_pols s) i = Some f ->
      length f <= length mb /\
      (k <> 2 \/ junk <= i -> exists v, column k f = Some v /\ stands_for v (firstn (length f) mb) g) /\
      forall j m c, nth_error mb j = Some m -> nth_error f j = Some c -> nth_error c k = Some (Some (coef (tl g) m)) \/ (i < junk /\ k = 2 /\ coef (tl g) m = 0%N /\ nth_error c k = Some None).
Proof.
  intros Hlt HT NB R0 HD Hdeg HL Hsz Hf HA kp. set (leads := map lead B0) in *.
  assert (Lead_in : forall f, In f B0 -> length (lead f) = nv - nev).
  { intros f If. destruct R0 as [R _]. rewrite Forall_forall in R. destruct (R f If) as (N0 & _ & F & _). destruct f as [|t f]; [congruence|]. inversion F as [|? ? [A _] _]. exact A. }
  assert (NL : leads <> []) by (unfold leads; destruct B0; [congruence|discriminate]).
  pose proof (@app_removelast_last mono leads [] NL) as RL. set (l0 := last leads []) in *. set (lr := removelast leads) in *.
  assert (Dle : forall x, In x leads -> (mdeg x <= mdeg l0)%N) by (apply sorted_last; apply R0).
  assert (LO : lms_ok (nv - nev) (lr ++ [l0])).
  { rewrite <- RL. apply Forall_forall. intros x Ix. split; [unfold leads in Ix; apply in_map_iff in Ix as (f & <- & If); apply Lead_in; exact If|]. intros i. pose proof (ex_le_deg x i). specialize (Dle x Ix). lia. }
  rewrite RL in HL. destruct (C24_enlarged (nv - nev) lr l0 L ltac:(lia) LO Hdeg HL Hsz fuel Hf) as (r & Er & Pr). rewrite <- RL in Er, Pr, HL.
  set (mb := match r with Some b => b | None => [] end).
  assert (M1 : StronglySorted drl_lt mb) by (unfold mb; destruct r as [b|]; [apply Pr|constructor]).
  assert (M2 : forall m, In m mb -> standard (nv - nev) leads m /\ (mdeg m <= mdeg l0)%N) by (unfold mb; destruct r as [b|]; [intros m; apply Pr|intros m []]).
  assert (M3 : forall m, standard (nv - nev) leads m -> (mdeg m <= mdeg l0)%N -> In m mb) by (unfold mb; destruct r as [b|]; [intros m X Y; apply Pr; auto|intros m X; exfalso; exact (Pr m X)]).
  assert (Hmb : Forall (fun b : mono => length b = nv - nev) mb) by (apply Forall_forall; intros m Im; apply (M2 m Im)).
  assert (LEN : forall lm, In lm leads -> exists n, compute_length lm (rev mb) = Some n /\ n <= length mb /\ forall b, In b mb -> (mdeg b <= mdeg lm)%N -> In b (firstn n mb)).
  { intros lm Il. assert (Ll : length lm = nv - nev) by (unfold leads in Il; apply in_map_iff in Il as (f & <- & If); auto). apply compute_length_ok.
    - unfold fits. apply N.leb_le. specialize (Dle lm Il). lia.
    - apply Forall_forall. intros b Ib. destruct (M2 b Ib) as [[A _] B]. split; [congruence|]. unfold fits. apply N.leb_le. lia.
    - intros Ib. destruct (M2 lm Ib) as [[_ A] _]. apply (A lm Il). intros i. lia. }
  set (len_of := fun lm => match compute_length lm (rev mb) with Some n => n | None => 0 end). set (lens := map len_of leads).
  assert (AL : array_of_lengths leads mb = Some lens).
  { unfold array_of_lengths, lens. apply omap_ok. intros lm Il. destruct (LEN lm Il) as (n & E & _). unfold len_of. rewrite E. reflexivity. }
  assert (Hlen_le : forall i, nth i lens 0 <= length mb).
  { intros i. destruct (nth_in_or_default i lens 0) as [I| ->]; [|lia]. unfold lens in *. apply in_map_iff in I as (lm & E & Il). rewrite <- E. unfold len_of. destruct (LEN lm Il) as (n & -> & A & _). exact A. }
  assert (Hroom : forall i lm m, nth_error leads i = Some lm -> standard (nv - nev) leads m -> drl_lt m lm -> In m (firstn (nth i lens 0) mb)).
  { intros i lm m Ei St Lt. unfold lens. rewrite (nth_error_nth2 (map len_of leads) i 0 (len_of lm)) by (apply map_nth_error; exact Ei). pose proof (nth_error_In _ _ Ei) as Il. destruct (LEN lm Il) as (n & E & _ & A). unfold len_of. rewrite E.
    assert (Dm : (mdeg m <= mdeg lm)%N) by (destruct Lt as [Q|[Q _]]; lia). apply A; [apply M3; [exact St|]|exact Dm]. specialize (Dle lm Il). lia. }
  assert (Hlens : length lens = length leads) by apply map_length.
  (* learning *)
  assert (LD : exists DD, omap (lm_of nv nev) D0 = Some DD /\ Forall (fun m => exists x, In x (firstn nev m) /\ x <> 0%N) DD).
  { clear - HD Hlt. induction HD as [|r D0 (c & e & l & -> & Le & Nz & _) HD (DD & E & F)]; [exists []; split; [reflexivity|constructor]|]. exists (e :: DD). split; [|constructor; [apply deg_nonzero; exact Nz|exact F]]. cbn [omap lm_of]. rewrite exps_layout by lia. cbn [obind]. rewrite E. reflexivity. }
  destruct LD as (DD & ED & FD).
  assert (LRN : exists s, learn fuel nv nev p0 (map (kept nev) B0 ++ D0) = Some (leads, mb, s) /\ s_alloc s = 2 /\ s_np s = 1 /\ length (s_primes s) = 2 /\ firstn 1 (s_primes s) = [p0] /\ pols_ok mb lens junk [B0] (fun _ => 2) (s_pols s)).
  { unfold learn. rewrite omap_app, (lms_kept nv nev Hlt B0 R0), ED. cbn [obind]. rewrite num_gb by exact FD. rewrite firstn_app, map_length, Nat.sub_diag. cbn [firstn]. rewrite app_nil_r, firstn_all2 by (rewrite map_length; lia). rewrite skip_lead. fold leads. rewrite Er. fold mb. rewrite AL. cbn [obind].
    unfold modpgbs_set. cbn [gb_modpoly_init s_alloc s_np s_primes Nat.sub Nat.leb repeat put obind].
    destruct (set_ok nv nev mb lens leads junk Hlt Hmb M1 Hlens Hlen_le Hroom [] B0 D0 (fun _ => 2) _ (init_ok mb lens junk 2)) as (pp & S1 & S2); [split; [exact R0|reflexivity]|intros i; cbn; lia|].
    cbn [length] in S1. cbn [gb_modpoly_init s_pols repeat] in S1. cbn [gb_modpoly_init s_pols]. cbn [repeat]. rewrite S1. cbn [obind]. eexists. split; [reflexivity|]. cbn [s_alloc s_np s_primes s_pols length firstn]. split; [reflexivity|]. split; [reflexivity|]. split; [reflexivity|]. split; [reflexivity|]. exact S2. }
  destruct LRN as (s0 & E0 & A1 & A2 & A3 & A4 & A5). unfold images. rewrite E0. cbn [obind].
  assert (I0 : inv mb lens junk 0 (gb_modpoly_realloc 1 junk s0) [p0] [B0]).
  { unfold inv. pose proof (realloc_first nv nev mb lens leads junk Hlt Hlens s0 [B0] A1 ltac:(cbn; lia) A5) as P. split; [exact A2|]. split; [reflexivity|]. split; [cbn; lia|]. cbn [gb_modpoly_realloc s_alloc s_primes]. split; [rewrite A1; lia|]. split; [rewrite A1; lia|]. split; [rewrite A1; exact P|].
    cbn [length]. rewrite firstn_app, A3. cbn [Nat.sub firstn]. rewrite app_nil_r. split; [exact A4|]. rewrite app_length, A3, A1. reflexivity. }
  destruct (rounds_ok nv nev mb lens leads junk Hlt Hmb M1 Hlens Hlen_le Hroom nthrds HT l ls HA 0 _ _ _ I0) as (s & E1 & I1). rewrite E1. cbn [obind]. exists mb, s. split; [reflexivity|]. split; [exact M1|].
  destruct I1 as (C1 & C2 & C3 & C4 & C5 & [C6 C7] & C8 & C9). cbn [app] in *. set (tk := taken leads ls) in *.
  split; [rewrite C1; unfold kp; cbn [length]; rewrite map_length; reflexivity|]. split; [rewrite C1, C8; reflexivity|]. split; [rewrite C6, Hlens; unfold leads; apply map_length|].
  intros k p B i g f Ek Ei Ef. destruct (C7 i f Ef) as [Lf Hcell].
  assert (Lff : length f <= length mb) by (rewrite Lf; apply Hlen_le). split; [exact Lff|].
  assert (Kb : k < s_np s) by (rewrite C1; assert (Q : nth_error kp k <> None) by congruence; apply nth_error_Some in Q; unfold kp in Q; cbn [length] in *; rewrite map_length; exact Q).
  assert (V : forall m, val (B0 :: map snd tk) i m k = coef (tl g) m).
  { intros m. unfold val. assert (Eb : nth_error (B0 :: map snd tk) k = Some B) by (change (B0 :: map snd tk) with (map snd kp); rewrite nth_error_map, Ek; reflexivity). pose proof (nth_error_nth2 _ _ [] _ Eb) as Q1. pose proof (nth_error_nth2 _ _ [] _ Ei) as Q2. unfold poly in *. rewrite Q1, Q2. reflexivity. }
  assert (KL : k < Lof junk (s_alloc s) i).
  { unfold Lof. destruct (Nat.eqb_spec (s_alloc s) 3) as [E3|]; [|rewrite C1 in Kb; lia]. rewrite C1 in Kb. destruct (i <? junk); lia. }
  assert (CELL : forall j m c, nth_error mb j = Some m -> nth_error f j = Some c -> nth_error c k = Some (Some (coef (tl g) m)) \/ (i < junk /\ k = 2 /\ coef (tl g) m = 0%N /\ nth_error c k = Some None)).
  { intros j m c Em Ec. destruct (Hcell j m c Em Ec) as [Lc Hc]. specialize (Hc k KL). rewrite V in Hc. destruct Hc as [Hc|(X & Y & U & W)]; [left; exact Hc|right; auto]. }
  split; [|exact CELL]. intros Hk. exists (map (coef (tl g)) (firstn (length f) mb)). split.
  - unfold column. clearbody mb. clear - CELL Hk Lff. revert mb Lff CELL. induction f as [|c f IH]; intros mb Lff CELL; [reflexivity|]. destruct mb as [|m mb]; [cbn in Lff; lia|]. cbn [omap length firstn map].
    destruct (CELL 0 m c eq_refl eq_refl) as [->|(X & Y & _)]; [|lia]. cbn [obind]. rewrite (IH mb); [reflexivity|cbn in Lff; lia|]. intros j m' c' Em Ec. exact (CELL (S j) m' c' Em Ec).
  - split; [reflexivity|]. intros t It. rewrite Lf.
    assert (Rk : fit nv nev leads B).
    { unfold kp in Ek. destruct k as [|k]; cbn in Ek; [injection Ek as <- <-; split; [exact R0|reflexivity]|]. apply nth_error_In in Ek. unfold tk in Ek. clear - Ek HA. induction HA as [|[q ro] [q' ob] l ls [_ Ha] HA IH]; cbn [taken] in Ek; [destruct Ek|]. cbn [snd] in Ha. destruct ob as [Bk|]; [|apply IH; exact Ek]. destruct ro as [ro|]; [|contradiction]. unfold same_leads in Ek. destruct (list_eq_dec (list_eq_dec N.eq_dec) (map lead Bk) leads) as [Eq|_]; [|apply IH; exact Ek]. destruct Ek as [Ek|Ek]; [injection Ek as <- <-; split; [apply Ha|exact Eq]|apply IH; exact Ek]. }
    exact (fit_tail nv nev mb lens leads Hlens Hroom B i g t Rk Ei It).
Qed.
Print Assumptions C65_images.

(** The dense vector determines the polynomial: its nonzero entries, read from the last one, are the terms behind the leading one. *)
Lemma sorted_same {A} (R : A -> A -> Prop) (l1 : list A) : StronglySorted R l1 -> forall l2, StronglySorted R l2 -> (forall a, ~ R a a) -> (forall a b, In a l1 -> In b l1 -> R a b -> ~ R b a) -> (forall x, In x l1 <-> In x l2) -> l1 = l2.
Proof.
  induction 1 as [|a l1 S1 IH F1]; intros l2 S2 Irr As Eq.
  - destruct l2 as [|b l2]; [reflexivity|]. destruct (proj2 (Eq b) (or_introl eq_refl)).
  - destruct S2 as [|b l2 S2 F2]; [destruct (proj1 (Eq a) (or_introl eq_refl))|]. rewrite Forall_forall in F1, F2.
    assert (E : a = b).
    { destruct (proj1 (Eq a) (or_introl eq_refl)) as [E|I]; [congruence|]. destruct (proj2 (Eq b) (or_introl eq_refl)) as [E|J]; [congruence|]. exfalso. exact (As a b (or_introl eq_refl) (or_intror J) (F1 b J) (F2 a I)). }
    subst b. f_equal. apply IH; [exact S2|exact Irr|intros x y Ix Iy; apply As; right; assumption|]. intros x. split; intros Ix.
    + destruct (proj1 (Eq x) (or_intror Ix)) as [E|I]; [|exact I]. subst x. exfalso. exact (Irr a (F1 a Ix)).
    + destruct (proj2 (Eq x) (or_intror Ix)) as [E|I]; [|exact I]. subst x. exfalso. exact (Irr a (F2 a Ix)).
Qed.
Lemma coef_in (f : poly) : decreasing f -> forall t, In t f -> coef f (snd t) = fst t.
Proof.
  induction 1 as [|a f S0 IH F]; intros t []; [subst a|]; unfold coef; cbn [find].
  - match goal with |- context [list_eq_dec ?d ?a ?b] => destruct (list_eq_dec d a b) as [_|NE] end; [reflexivity|destruct (NE eq_refl)].
  - match goal with |- context [list_eq_dec ?d ?a ?b] => destruct (list_eq_dec d a b) as [E|_] end; [|exact (IH t H)]. rewrite Forall_forall in F. specialize (F t H). unfold mono in *. rewrite E in F. destruct (drl_irrefl _ F).
Qed.
Lemma coef_out (f : poly) m : coef f m <> 0%N -> In (coef f m, m) f.
Proof.
  induction f as [|[c e] f IH]; [cbn; congruence|]. unfold coef. cbn [find snd]. match goal with |- context [list_eq_dec ?d ?a ?b] => destruct (list_eq_dec d a b) as [->|NE] end; cbn [fst]; [intros _; left; reflexivity|]. intros H. right. apply IH. exact H.
Qed.
Lemma sorted_snoc {A} (R : A -> A -> Prop) l x : StronglySorted R l -> (forall y, In y l -> R y x) -> StronglySorted R (l ++ [x]).
Proof.
  induction 1 as [|a l S0 IH F]; intros H; [repeat constructor|]. cbn. constructor; [apply IH; intros y Iy; apply H; right; exact Iy|]. apply Forall_app. split; [exact F|]. constructor; [apply H; left; reflexivity|constructor].
Qed.
Theorem C65_vector_polynomial nv v mons g : stands_for v mons g -> StronglySorted drl_lt mons -> decreasing (tl g) -> Forall (fun t => length (snd t) = nv /\ fst t <> 0%N) (tl g) ->
  rev (filter (fun x => negb (fst x =? 0)%N) (combine v mons)) = tl g.
Proof.
  intros [-> Hin] Hs Hd Hf. set (h := tl g) in *. symmetry.
  assert (EL : forall x, In x (filter (fun x => negb (fst x =? 0)%N) (combine (map (coef h) mons) mons)) <-> (In (snd x) mons /\ fst x = coef h (snd x) /\ fst x <> 0%N)).
  { intros x. rewrite filter_In, negb_true_iff, N.eqb_neq. clear. induction mons as [|m mons IH]; cbn [map combine]; [cbn; tauto|]. cbn [In]. split.
    - intros [[<-|I] N0]; [cbn; auto|]. destruct IH as [IH _]. destruct IH as (A & B & C); auto.
    - intros ([E|I] & E2 & N0); [split; [left; subst m; rewrite <- E2; destruct x; reflexivity|exact N0]|]. destruct IH as [_ IH]. destruct IH as [A B]; auto. }
  apply (sorted_same (fun a b : N * mono => drl_lt (snd b) (snd a))).
  - exact Hd.
  - clear - Hs. induction Hs as [|m mons Hs IH F]; [constructor|]. cbn [map combine filter]. destruct (negb _); [|exact IH]. cbn [rev]. apply sorted_snoc; [exact IH|]. intros y Iy. apply in_rev in Iy. apply filter_In in Iy as [Iy _]. destruct y as [c e]. apply in_combine_r in Iy. cbn. rewrite Forall_forall in F. apply F. exact Iy.
  - intros a. apply drl_irrefl.
  - intros a b Ia Ib. rewrite Forall_forall in Hf. apply (drl_asym nv); apply Hf; assumption.
  - intros x. rewrite <- in_rev, EL. split.
    + intros Ix. split; [apply Hin; exact Ix|]. rewrite (coef_in h Hd x Ix). split; [reflexivity|]. rewrite Forall_forall in Hf. apply (Hf x Ix).
    + intros (A & B & C). rewrite B in C. pose proof (coef_out h (snd x) C) as Q. rewrite <- B in Q. destruct x; exact Q.
Qed.
Print Assumptions C65_vector_polynomial.

(** The exported arrays: lengths, exponents (zero for the eliminated variables) and numerators of the terms, the leading one first. *)
Theorem C65_export ebl mb gs : (forall g, In g gs -> length (q_cf (snd g)) <= length mb) ->
  let terms := map (fun g : list Z * qpol => dense_terms (q_lm (snd g)) (fst g) (q_cf (snd g)) mb) gs in
  export_qq ebl mb gs = Some (map (fun t => length t) terms, map (fun t => repeat 0%Z ebl ++ snd t) (concat terms), map (fun t => fst (fst t)) (concat terms)).
Proof.
  intros H terms.
  assert (P : forall g, In g gs -> export_poly ebl mb g = Some (map (fun t => (repeat 0%Z ebl ++ snd t, fst (fst t))) (dense_terms (q_lm (snd g)) (fst g) (q_cf (snd g)) mb))).
  { intros g Ig. specialize (H g Ig). unfold export_poly, dense_terms. cbn [map fst snd].
    assert (Q : forall cf i, i <= length cf -> i <= length mb ->
      (fix go (i : nat) : option (list (list Z * Z)) := match i with O => Some [] | S i' => let? c := nth_error cf i' in if (fst c =? 0)%Z then go i' else let? m := nth_error mb i' in let? r := go i' in Some ((repeat 0%Z ebl ++ m, fst c) :: r) end) i
      = Some (map (fun t : (Z * Z) * list Z => (repeat 0%Z ebl ++ snd t, fst (fst t))) (rev (filter nonzero (firstn i (combine cf mb)))))).
    { intros cf i. induction i as [|i IH]; intros A B; [reflexivity|]. destruct (nth_error cf i) as [c|] eqn:Ec; [|apply nth_error_None in Ec; lia]. destruct (nth_error mb i) as [m|] eqn:Em; [|apply nth_error_None in Em; lia].
      assert (E : firstn (S i) (combine cf mb) = firstn i (combine cf mb) ++ [(c, m)]).
      { clear - Ec Em. revert mb cf Ec Em. induction i as [|i IHi]; intros [|m' mb] [|c' cf] Ec Em; try discriminate; cbn in Ec, Em; [injection Ec as ->; injection Em as ->; reflexivity|]. cbn [combine]. change (firstn (S (S i)) ((c', m') :: combine cf mb)) with ((c', m') :: firstn (S i) (combine cf mb)). rewrite (IHi mb cf Ec Em). reflexivity. }
      cbn [obind]. rewrite E, filter_app, rev_app_distr. cbn [filter]. unfold nonzero at 1. cbn [fst]. rewrite IH by lia. destruct (Z.eqb_spec (fst c) 0) as [Z0|NZ]; cbn [negb rev app map obind]; reflexivity. }
    rewrite Q by lia. cbn [obind]. rewrite firstn_all2 by (rewrite combine_length; lia). reflexivity. }
  unfold export_qq. rewrite (omap_ok _ _ gs P). cbn [obind]. rewrite <- map_map with (f := fun g : list Z * qpol => dense_terms (q_lm (snd g)) (fst g) (q_cf (snd g)) mb) (g := map (fun t : (Z * Z) * list Z => (repeat 0%Z ebl ++ snd t, fst (fst t)))). fold terms.
  rewrite <- concat_map, !map_map. f_equal. f_equal; f_equal.
  unfold terms. rewrite map_map. apply map_ext_in. intros g Ig. specialize (H g Ig). unfold dense_terms. cbn [length]. f_equal. rewrite rev_length. clear - H. revert H. generalize (q_cf (snd g)). intros cf. revert mb. induction cf as [|c cf IH]; intros [|m mb] L; cbn in L; try lia; [reflexivity|reflexivity|]. cbn [combine filter]. unfold nonzero at 1. cbn [fst]. destruct (negb _); cbn [length]; rewrite <- (IH mb) by lia; reflexivity.
Qed.
Print Assumptions C65_export.

(** ** Examples *)
Transparent monomial_basis_enlarged.
(** In two variables, modulo 7: x y + 2 x, x^2 + 3 y + 4, y^3 + 5; then other coefficients modulo 11; modulo 13 another staircase, which is refused; modulo
    17 again the same staircase. *)
Definition ex_B (a b c : N) : list poly :=
  [ filter (fun t => negb (fst t =? 0)%N) [(1, [1; 1]); (a, [1; 0]); (b, [0; 0])]%N;
    filter (fun t => negb (fst t =? 0)%N) [(1, [2; 0]); (c, [0; 1]); (4, [0; 0])]%N;
    [(1, [0; 3]); (5, [0; 0])]%N ].
Definition ex_bad : list poly := [[(1, [1; 0]); (2, [0; 0])]; [(1, [0; 2])]]%N.
Definition ex_run (junk : nat) := images 20 2 0 1 junk 7 (map (kept 0) (ex_B 2 0 3)) [(11%Z, Some (map (kept 0) (ex_B 2 6 0))); (13%Z, Some (map (kept 0) ex_bad)); (17%Z, Some (map (kept 0) (ex_B 0 0 3)))].
Example C65_ex : exists s, ex_run 0 = Some ([[1; 1]; [2; 0]; [0; 3]]%N, [[0; 0]; [0; 1]; [1; 0]; [0; 2]]%N, s) /\
  firstn (s_np s) (s_primes s) = [7; 11; 17]%Z /\
  map (fun k => map (column k) (s_pols s)) [0; 1; 2] =
    [[Some [0; 0; 2; 0]; Some [4; 3; 0; 0]; Some [5; 0; 0; 0]]; [Some [6; 0; 2; 0]; Some [4; 0; 0; 0]; Some [5; 0; 0; 0]]; [Some [0; 0; 0; 0]; Some [4; 3; 0; 0]; Some [5; 0; 0; 0]]]%N.
Proof. vm_compute. eexists. split; [reflexivity|]. split; reflexivity. Qed.
(** the hypotheses of C65_images hold for it *)
Example C65_ex_hyps : reduced 2 (ex_B 2 0 3) /\ HilbSpec.lists (fun m => standard 2 (map lead (ex_B 2 0 3)) m /\ (mdeg m <= mdeg (last (map lead (ex_B 2 0 3)) []))%N) [[0; 0]; [0; 1]; [1; 0]; [0; 2]]%N.
Proof.
  assert (ND : forall a b c d : N, (c < a \/ d < b)%N -> ~ mdvd [a; b] [c; d]) by (intros a b c d H D; pose proof (D 0) as D0; pose proof (D 1) as D1; cbn in D0, D1; lia).
  assert (ST : forall c d : N, (c = 0 /\ d < 3 \/ c = 1 /\ d = 0)%N -> standard 2 [[1; 1]; [2; 0]; [0; 3]]%N [c; d]).
  { intros c d H. split; [reflexivity|]. intros l [<-|[<-|[<-|[]]]]; apply ND; lia. }
  assert (SO : forall a b c d : N, (a + b < c + d \/ a + b = c + d /\ d < b)%N -> drl_lt [a; b] [c; d]).
  { intros a b c d [H|[H1 H2]]; [left; cbn; lia|]. right. split; [cbn; lia|]. exists 1. split; [cbn; lia|]. intros [|[|j]] Hj; try lia. destruct j; reflexivity. }
  split.
  - split.
    + change (ex_B 2 0 3) with [[(1, [1; 1]); (2, [1; 0])]; [(1, [2; 0]); (3, [0; 1]); (4, [0; 0])]; [(1, [0; 3]); (5, [0; 0])]]%N. change (map lead _) with [[1; 1]; [2; 0]; [0; 3]]%N.
      assert (DE : forall c c' a b a' b' : N, (a' + b' < a + b)%N -> (fun x y : N * mono => drl_lt (snd y) (snd x)) (c, [a; b]) (c', [a'; b'])) by (intros; apply SO; left; assumption).
      apply Forall_cons; [|apply Forall_cons; [|apply Forall_cons; [|constructor]]]; (split; [discriminate|]); (split; [repeat first [apply SSorted_cons|apply Forall_cons|apply SSorted_nil|apply Forall_nil|apply DE; lia|apply SO; cbn; lia]|]); (split; [repeat (constructor; [split; [reflexivity|discriminate]|]); constructor|]);
        intros t It; cbn in It; repeat (destruct It as [<-|It]; [apply ST; lia|]); contradiction.
    + change (map lead _) with [[1; 1]; [2; 0]; [0; 3]]%N. repeat first [apply SSorted_cons|apply Forall_cons|apply SSorted_nil|apply Forall_nil|apply SO; cbn; lia].
  - split.
    + repeat (constructor; [cbn; intuition discriminate|]). constructor.
    + intros m. split.
      * intros [<-|[<-|[<-|[<-|[]]]]]; (split; [apply ST; lia|cbn; lia]).
      * intros [[L St] Dm]. destruct m as [|c [|d [|]]]; cbn in L; try lia. change (c + (d + 0) <= 3)%N in Dm.
        assert (A : ~ (1 <= c /\ 1 <= d)%N) by (intros [X Y]; apply (St [1; 1]%N); [cbn; auto|]; intros [|[|i]]; cbn; try lia; destruct i; lia).
        assert (B : ~ (2 <= c)%N) by (intros X; apply (St [2; 0]%N); [cbn; auto|]; intros [|[|i]]; cbn; try lia; destruct i; lia).
        assert (C : ~ (3 <= d)%N) by (intros X; apply (St [0; 3]%N); [cbn; auto|]; intros [|[|i]]; cbn; try lia; destruct i; lia).
        assert (K : (c = 0 /\ d = 0 \/ c = 0 /\ d = 1 \/ c = 0 /\ d = 2 \/ c = 1 /\ d = 0)%N) by lia. destruct K as [[-> ->]|[[-> ->]|[[-> ->]|[-> ->]]]]; cbn; auto.
Qed.
(** elimination of the first of two variables: only the second polynomial is kept *)
Example C65_elim_ex : exists s, images 20 2 1 1 0 7 [kept 1 [(1, [3]); (2, [1])]; Some [(1, [1; 1; 0; 0]); (3, [0; 0; 1; 1])]]%N [(11%Z, Some [Some [(1, [1; 1; 0; 0])]; kept 1 [(1, [3]); (4, [0])]])]%N = Some ([[3]]%N, [[0]; [1]; [2]]%N, s) /\
  map (fun k => map (column k) (s_pols s)) [0; 1] = [[Some [0; 2; 0]]; [Some [4; 0; 0]]]%N.
Proof. vm_compute. eexists. split; reflexivity. Qed.
Example C65_export_ex : export_qq 1 [[0]; [1]; [2]]%Z [([3]%Z, {| q_lm := 5; q_cf := [(2, 1); (0, 1); (-7, 1)] |})]%Z = Some ([3], [[0; 3]; [0; 2]; [0; 0]]%Z, [5; -7; 2]%Z).
Proof. reflexivity. Qed.
(** with another value of dlift->S the third image contains uninitialised memory *)
Theorem C65_uninitialised : exists junk nv p0 rows l leads mb s, images 20 nv 0 1 junk p0 rows l = Some (leads, mb, s) /\ s_np s = 3 /\
  exists f, nth_error (s_pols s) 0 = Some f /\ column 0 f <> None /\ column 1 f <> None /\ column 2 f = None.
Proof.
  exists 1, 2, 7%Z, (map (kept 0) (ex_B 2 0 3)), [(11%Z, Some (map (kept 0) (ex_B 2 6 0))); (17%Z, Some (map (kept 0) (ex_B 0 0 3)))].
  vm_compute. eexists; eexists; eexists. split; [reflexivity|]. split; [reflexivity|]. eexists. split; [reflexivity|]. split; [discriminate|]. split; [discriminate|reflexivity].
Qed.
Print Assumptions C65_uninitialised.
