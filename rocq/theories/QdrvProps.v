(** C81: solving over the rationals, through all restarts: what is reported are the solutions of the input. *)
From Coq Require Import ZArith NArith Arith String List Bool Lia Permutation Sorting.Sorted Znumtheory Ring_theory Reals Lra.
From Verif Require Import LinSpec MonoSpec MonoModel MonoProofs MonoCmpProofs GbSpec F4Model RoundProofs FpSpec PointSpec PointProofs QgbSpec QgbProofs RurSpec ModInvModel InputSpec InputModel InputProofs InputRunProofs InputProps ImportModel ImportProofs ImportProps DrvModel DrvProofs QdrvModel QdrvProofs.
From Verif Require Import QparSpec QparModel QparProofs QparRun QparProps RurProps RexProps PolySpec PolyProofs DescModel IsolModel RefineModel BoxModel BoxProofs BoxProps.
Import ListNotations.
Open Scope Z_scope.
Notation length := List.length.

(** ** Specification *)
(** The map [phi] gives fractions their value. *)
Definition fractions (K : Type) (k0 k1 : K) (add mul : K -> K -> K) (opp : K -> K) (phi : coef -> K) : Prop :=
  forall x d, d <> 0 -> mul (kz K k0 k1 add mul opp d) (phi (x, d)) = kz K k0 k1 add mul opp x.

(** ** The polynomials of an attempt *)
(** After any number of restarts the attempt works with polynomials with coprime integer coefficients in standard form, whose zeroes correspond one to one to the
    solutions of the input, through the coordinates that are reported, in every ring where the integers other than 0 have inverses. *)
Theorem C81_input ord sorter gh os g0 names s rnd g : qdrv_ok ord sorter -> (0 < nvars g0)%nat -> fresh g0 -> field_char g0 = 0 -> rep g0 names s -> qsys_ok (nvars g0) s -> attempts gh os g0 rnd = Some (true, g) ->
  exists F, q_input sorter g = Some (1, F) /\ Forall (zsorted (nvars g) (o_lt (ord (nvars g)))) F /\
    forall K k0 k1 add mul sub opp phi, char_zero K k0 k1 add mul sub opp -> fractions K k0 k1 add mul opp phi -> (forall x, x <> 0 -> exists w, mul w (kz K k0 k1 add mul opp x) = k1) ->
      let sol := solves k0 k1 add mul phi s in let zero y := zero_of K k0 k1 add mul opp F (fun i => nth i y k0) in
      (forall y, length y = nvars g -> zero y -> exists x, reported g y = Some x /\ length x = nvars g0 /\ sol x) /\
      (forall x, length x = nvars g0 -> sol x -> exists y, length y = nvars g /\ zero y /\ reported g y = Some x /\ forall y', length y' = nvars g -> zero y' -> reported g y' = Some x -> y' = y).
Proof.
  intros D Hn Hf FC R SO H. destruct (attempt_input ord sorter gh os g0 names s rnd g D Hn Hf FC R SO H) as (nm & sg & F & RG & NV & EF & ZS & HZ). exists F. split; [exact EF|]. split; [exact ZS|].
  intros K k0 k1 add mul sub opp phi CZ FR IV sol zero. specialize (HZ K k0 k1 add mul sub opp phi CZ FR).
  assert (LN : forall y : list K, length y = nvars g -> map (fun i => nth i y k0) (seq 0 (nvars g)) = y). { intros y Ly. apply (nth_ext _ _ k0 k0); [rewrite map_length, seq_length; now symmetry|]. intros i Hi. rewrite map_length, seq_length in Hi. rewrite (nth_indep _ k0 (nth 0 y k0)) by (rewrite map_length, seq_length; exact Hi). rewrite (map_nth (fun i => nth i y k0)). now rewrite seq_nth. }
  assert (Z1 : forall y, length y = nvars g -> zero y <-> solves k0 k1 add mul phi sg y). { intros y Ly. unfold zero. rewrite HZ, LN by exact Ly. reflexivity. }
  destruct (C39_solutions k0 k1 add mul sub opp phi gh os g0 names s rnd g nm sg (proj1 CZ)) as [A B]; try assumption.
  { intros v [V _]. destruct (IV v V) as (w & W). exists w. rewrite <- W. f_equal. rewrite <- (FR v 1) by lia. rewrite (kz_1 K k0 k1 add mul sub opp (proj1 CZ)). symmetry. apply (Rmul_1_l (proj1 CZ)). }
  split.
  - intros y Ly Hy. apply A; [exact Ly|]. apply Z1; assumption.
  - intros x Lx Hx. destruct (B x Lx Hx) as (y & Ly & Sy & Ry & U). exists y. split; [exact Ly|]. split; [apply Z1; assumption|]. split; [exact Ry|]. intros y' Ly' Zy' Ry'. apply U; [exact Ly'|apply Z1; assumption|exact Ry'].
Qed.
Print Assumptions C81_input.

(** When the constants are in the ideal of these polynomials, the input has no solution. *)
Theorem C81_no_solution ord sorter gh os g0 names s rnd g F : qdrv_ok ord sorter -> (0 < nvars g0)%nat -> fresh g0 -> field_char g0 = 0 -> rep g0 names s -> qsys_ok (nvars g0) s -> attempts gh os g0 rnd = Some (true, g) ->
  q_input sorter g = Some (1, F) -> qunit (nvars g) F ->
  forall K k0 k1 add mul sub opp phi, char_zero K k0 k1 add mul sub opp -> fractions K k0 k1 add mul opp phi -> (forall x, x <> 0 -> exists w, mul w (kz K k0 k1 add mul opp x) = k1) -> k0 <> k1 ->
    forall x, length x = nvars g0 -> ~ solves k0 k1 add mul phi s x.
Proof.
  intros D Hn Hf FC R SO H EF U K k0 k1 add mul sub opp phi CZ FR IV N1 x Lx Sx. destruct (C81_input ord sorter gh os g0 names s rnd g D Hn Hf FC R SO H) as (F' & EF' & ZS & HK). assert (F' = F) by congruence. subst F'.
  destruct (HK K k0 k1 add mul sub opp phi CZ FR IV) as [_ B]. destruct (B x Lx Sx) as (y & _ & Zy & _). revert Zy. apply (C76_empty (nvars g) F (zsorted_len _ _ _ ZS) U K k0 k1 add mul sub opp CZ N1).
Qed.
Print Assumptions C81_no_solution.

(** ** The boxes *)
Lemma opt_map_len {A B} (f : A -> option B) l r : opt_map f l = Some r -> length r = length l.
Proof. intros E. apply opt_map_ok in E. symmetry. exact (f2_len _ _ _ E). Qed.
Lemma single_len p rt prec l : single_exact p rt prec = Some l -> length l = S (length (coords p)).
Proof. unfold single_exact. destruct (opt_map _ _) as [r|] eqn:E; [|discriminate]. cbn [obind]. intros X. injection X as <-. rewrite app_length, (opt_map_len _ _ _ E). cbn. lia. Qed.
Lemma lazy_len f1 f2 p rt prec l : lazy_root f1 f2 p rt prec = Some l -> length l = S (length (coords p)).
Proof.
  unfold lazy_root. destruct (isexact rt); [apply single_len|]. destruct (lazy_loop _ _ _ _ _) as [[[rt' corr] [dn up]]|]; [|discriminate]. cbn [obind]. destruct (isexact rt'); [apply single_len|].
  destruct (opt_map _ _) as [r|] eqn:E; [|discriminate]. cbn [obind]. intros X. injection X as <-. rewrite app_length, (opt_map_len _ _ _ E). cbn. lia.
Qed.
Lemma extract_len f1 f2 p ivs prec pts : extract_roots f1 f2 p ivs prec = Some pts -> Forall (fun l => length l = S (length (coords p))) pts.
Proof.
  unfold extract_roots. destruct (opt_map _ ivs) as [r|] eqn:E; [|discriminate]. cbn [obind]. intros X. pose proof (opt_map_forall _ (fun l => length l = S (length (coords p))) _ _ E (fun a b => lazy_len f1 f2 p a prec b)) as HR. apply opt_map_ok in X. clear E.
  induction X as [|a b r pts E X IH]; constructor; inversion HR; subst; [rewrite (opt_map_len _ _ _ E); assumption|]. apply IH. assumption.
Qed.
(** coordinates of boxes and of points are kept alike *)
Lemma f2_nth {A B} (Q : A -> B -> Prop) : forall l m i a b, Forall2 Q l m -> nth_error l i = Some a -> nth_error m i = Some b -> Q a b.
Proof. intros l m i a b H. revert i. induction H; intros [|i] E1 E2; cbn in *; try discriminate; [congruence|eauto]. Qed.
Lemma f2_of_nth {A B} (Q : A -> B -> Prop) : forall l m, length l = length m -> (forall i a b, nth_error l i = Some a -> nth_error m i = Some b -> Q a b) -> Forall2 Q l m.
Proof. induction l as [|a l IH]; intros [|b m] L H; try discriminate; constructor; [apply (H 0%nat); reflexivity|]. apply IH; [cbn in L; lia|]. intros i x y. apply (H (S i)). Qed.
Lemma removelast_nth {A} : forall (l : list A) i, nth_error (removelast l) i = if (i <? length l - 1)%nat then nth_error l i else None.
Proof. induction l as [|a l IH]; intros i; [destruct i; reflexivity|]. destruct l as [|b l]; [destruct i; reflexivity|]. change (removelast (a :: b :: l)) with (a :: removelast (b :: l)). destruct i as [|i]; [reflexivity|]. cbn [nth_error]. rewrite IH. cbn [length]. replace (S i <? S (S (length l)) - 1)%nat with (i <? S (length l) - 1)%nat; [reflexivity|]. destruct (Nat.ltb_spec i (S (length l) - 1)); symmetry; [apply Nat.ltb_lt|apply Nat.ltb_ge]; lia. Qed.
Lemma reported_pos {A B} (g : gens) (l : list A) (m : list B) m' : length l = length m -> reported g m = Some m' ->
  exists l', reported g l = Some l' /\ length l' = length m' /\ forall i, exists j, nth_error l' i = nth_error l j /\ nth_error m' i = nth_error m j.
Proof.
  intros L E. unfold reported in *. destruct (0 <? linear_form_base_coef g).
  - injection E as <-. eexists. split; [reflexivity|]. assert (LR : forall T (v : list T), length (removelast v) = (length v - 1)%nat). { intros T v. induction v as [|a [|b v] IH]; [reflexivity|reflexivity|]. change (removelast (a :: b :: v)) with (a :: removelast (b :: v)). cbn [length] in *. lia. } split; [rewrite !LR, L; reflexivity|].
    intros i. rewrite !removelast_nth, <- L. destruct (Nat.ltb_spec i (length l - 1)); [exists i; auto|]. exists (length l). split; symmetry; apply nth_error_None; lia.
  - destruct (negb _ && negb _).
    + destruct (idx (change_var_order g)) as [c|]; [|discriminate]. cbn [obind] in *. set (a := (nvars g - 1)%nat) in *.
      assert (LT : (a < length m)%nat /\ (c < length m)%nat). { unfold aswap in E. destruct (nth_error m a) eqn:E1; [|discriminate]. destruct (nth_error m c) eqn:E2; [|discriminate]. split; apply nth_error_Some; congruence. }
      destruct (aswap_ok m a c ltac:(lia) ltac:(lia)) as (m1 & Em & (M0 & M1 & M2 & M3)). assert (m1 = m') by congruence. subst m1. destruct (aswap_ok l a c ltac:(lia) ltac:(lia)) as (l1 & El & (T0 & T1 & T2 & T3)). exists l1. split; [exact El|]. split; [congruence|].
      intros i. destruct (Nat.eq_dec i a) as [->|Na]; [exists c; auto|]. destruct (Nat.eq_dec i c) as [->|Nc]; [exists a; auto|]. exists i. auto.
    + injection E as <-. exists l. split; [reflexivity|]. split; [exact L|]. intros i. exists i. auto.
Qed.
Lemma reported_f2 {A B} (Q : A -> B -> Prop) (g : gens) (l : list A) (m : list B) m' l' : Forall2 Q l m -> reported g m = Some m' -> reported g l = Some l' -> Forall2 Q l' m'.
Proof.
  intros F E E'. destruct (reported_pos g l m m' (f2_len _ _ _ F) E) as (l1 & E1 & L & H). assert (l1 = l') by congruence. subst l1. apply f2_of_nth; [exact L|]. intros i a b Ha Hb. destruct (H i) as (j & J1 & J2). apply (f2_nth Q l m j a b F); congruence.
Qed.
Lemma kz_R_frac : fractions R 0%R 1%R Rplus Rmult Ropp real_coef.
Proof. intros x d N. rewrite !kz_IZR. unfold real_coef. cbn [fst snd]. field. now apply not_0_IZR. Qed.

(** The boxes that are written enclose, when the evaluation of the denominator is steady (the condition of C33 and C34), the real solutions of the input as given, with the
    coordinates in the order of the input: one list of boxes for each of them, however many restarts there were. The hypothesis [represents] is what C75_lift gives. *)
Theorem C81_boxes ord sorter gh os g0 names s rnd g F d S0 AF prec fuel ivs : qdrv_ok ord sorter -> (0 < nvars g0)%nat -> fresh g0 -> field_char g0 = 0 -> rep g0 names s -> qsys_ok (nvars g0) s -> attempts gh os g0 rnd = Some (true, g) ->
  q_input sorter g = Some (1, F) -> represents (nvars g) F d S0 AF -> let p := {| elim := S0; denom := pderiv S0; coords := AF |} in
  0 < prec -> real_roots fuel S0 prec = Some ivs ->
  (forall i, In i ivs -> isexact i = false -> zeval S0 (IZR (numer i) * powerRZ 2 (- ik i)) <> 0%R /\ zeval S0 (IZR (numer i + 1) * powerRZ 2 (- ik i)) <> 0%R) ->
  exists N raw pts out sols, (forall f1 f2, (N <= f1)%nat -> (N <= f2)%nat -> extract_roots f1 f2 p ivs prec = Some pts) /\ Forall2 (Forall2 same_box) raw pts /\ report_all g pts = Some out /\
    (forall x, In x sols <-> length x = nvars g0 /\ solves 0%R 1%R Rplus Rmult real_coef s x) /\ NoDup sols /\
    Forall2 (fun x bw => well_evaluated p (fst bw) -> Forall2 encloses (snd bw) x) sols (combine raw out).
Proof.
  intros D Hn Hf FC R SO H EF RP p Hp HR HI. destruct (C81_input ord sorter gh os g0 names s rnd g D Hn Hf FC R SO H) as (F' & EF' & ZS & HK). assert (F' = F) by congruence. subst F'.
  assert (NV : (1 <= nvars g)%nat). { destruct (attempt_input ord sorter gh os g0 names s rnd g D Hn Hf FC R SO H) as (? & ? & ? & _ & NV & _). exact NV. }
  destruct (C75_boxes (nvars g) F d S0 AF prec fuel ivs NV RP Hp HR HI) as (N & raw & pts & ys & H1 & H2 & H3 & H4 & H5). fold p in H1, H5.
  destruct (HK _ _ _ _ _ _ _ real_coef R_char_zero kz_R_frac) as [A B]. { intros x N0. exists (/ IZR x)%R. rewrite kz_IZR. field. now apply not_0_IZR. }
  assert (LP : Forall (fun l => length l = nvars g) pts). { pose proof (extract_len N N p ivs prec pts (H1 N N (le_n N) (le_n N))) as E. destruct RP as (_ & _ & _ & _ & LA & _). cbn [p coords] in E. rewrite LA in E. refine (Forall_impl _ _ E). intros l X. rewrite X. lia. }
  assert (L5 : length ys = length pts). { rewrite (f2_len _ _ _ H5), combine_length, (f2_len _ _ _ H2). lia. }
  assert (RY : forall y, In y ys -> length y = nvars g /\ exists x, reported g y = Some x /\ length x = nvars g0 /\ solves 0%R 1%R Rplus Rmult real_coef s x). { intros y Hy. apply H3 in Hy as [Ly Zy]. split; [exact Ly|]. apply A; [exact Ly|exact Zy]. }
  assert (X : exists xs out, Forall2 (fun y x => reported g y = Some x) ys xs /\ report_all g pts = Some out /\ Forall2 (fun x bw => well_evaluated p (fst bw) -> Forall2 encloses (snd bw) x) xs (combine raw out)).
  { clear - H2 H5 LP L5 RY. unfold report_all. revert ys H5 L5 RY. induction H2 as [|b w raw pts SB H2 IH]; intros ys H5 L5 RY.
    - destruct ys; [|discriminate]. exists [], []. repeat split; constructor.
    - destruct ys as [|y ys]; [discriminate|]. cbn [combine] in H5. inversion H5 as [|? ? ? ? E5 F5]; subst. inversion LP as [|? ? L1 L2]; subst. destruct (IH L2 ys F5 ltac:(cbn in L5; lia) (fun v Hv => RY v (or_intror Hv))) as (xs & out & P1 & P2 & P3).
      destruct (RY y (or_introl eq_refl)) as (Ly & x & Ex & _). destruct (reported_pos g w y x ltac:(congruence) Ex) as (w' & Ew & _ & _). exists (x :: xs), (w' :: out). split; [constructor; assumption|]. split; [cbn [omap]; rewrite Ew; cbn [obind]; rewrite P2; reflexivity|].
      cbn [combine]. constructor; [|exact P3]. cbn [fst snd] in *. intros WE. apply (reported_f2 encloses g w y x w' (E5 WE) Ex Ew). }
  destruct X as (xs & out & P1 & P2 & P3). exists N, raw, pts, out, xs. split; [exact H1|]. split; [exact H2|]. split; [exact P2|]. split; [|split; [|exact P3]].
  - intros x. split.
    + intros Hx. assert (exists y, In y ys /\ reported g y = Some x) as (y & Hy & E). { clear - P1 Hx. induction P1; [destruct Hx|]. destruct Hx as [->|Hx]; [eexists; split; [now left|eassumption]|]. destruct (IHP1 Hx) as (z & Hz & E). exists z. split; [now right|exact E]. }
      destruct (RY y Hy) as (_ & x' & E' & Q). assert (x' = x) by congruence. subst x'. exact Q.
    + intros [Lx Sx]. destruct (B x Lx Sx) as (y & Ly & Zy & Ey & _). assert (Hy : In y ys) by (apply H3; split; assumption). clear - P1 Hy Ey. induction P1 as [|a b l m E P IH]; [destruct Hy|]. destruct Hy as [->|Hy]; [left; congruence|right; auto].
  - assert (INJ : forall y y' x, In y ys -> In y' ys -> reported g y = Some x -> reported g y' = Some x -> y = y').
    { intros y y' x Hy Hy' E E'. destruct (RY y Hy) as (_ & x1 & E1 & Lx & Sx). assert (x1 = x) by congruence. subst x1. destruct (B x Lx Sx) as (z & _ & _ & _ & U). apply H3 in Hy as [Ly Zy]. apply H3 in Hy' as [Ly' Zy']. rewrite (U y Ly Zy E), (U y' Ly' Zy' E'). reflexivity. }
    clear - P1 H4 INJ. induction P1 as [|a b l m E P IH]; constructor; inversion H4; subst.
    + intros Hb. assert (exists y, In y l /\ reported g y = Some b) as (y & Hy & Ey). { clear - P Hb. induction P; [destruct Hb|]. destruct Hb as [->|Hb]; [eexists; split; [now left|eassumption]|]. destruct (IHP Hb) as (z & Hz & E). exists z. split; [now right|exact E]. }
      assert (a = y) by (apply (INJ a y b); [now left|now right|exact E|exact Ey]). subst y. contradiction.
    + apply IH; [assumption|]. intros y y' x Hy Hy'. apply INJ; now right.
Qed.
Print Assumptions C81_boxes.
