(** Linear algebra with recording of the used reducers: the recorded run is the ordinary one, and every new row is in the span
    of the kept rows and the recorded reducers. *)
From Coq Require Import ZArith NArith Arith List Bool Lia Znumtheory Permutation.
From Verif Require Import ModInvModel MonoSpec MonoModel GbSpec LinSpec LaModel LaSpec LaProofs LaRowProofs LaSysProofs F4Model TraceModel.
Import ListNotations.
Open Scope Z_scope.

(** * Bit arrays *)
Definition bit (w : list N) (i : nat) : bool := N.testbit (nth (i / 32) w 0%N) (N.of_nat (i mod 32)).
Definition wordsok (w : list N) : Prop := forall x, In x w -> (x < 2 ^ 32)%N.
Lemma nwords_lt n i : (i < n)%nat -> (i / 32 < nwords n)%nat.
Proof.
  intros H. unfold nwords. pose proof (Nat.div_mod n 32 ltac:(lia)). pose proof (Nat.div_mod i 32 ltac:(lia)). pose proof (Nat.mod_upper_bound n 32 ltac:(lia)). pose proof (Nat.mod_upper_bound i 32 ltac:(lia)).
  destruct (Nat.eqb_spec (n mod 32) 0); lia.
Qed.
Lemma bit_repeat n i : bit (repeat 0%N n) i = false.
Proof. unfold bit. replace (nth (i / 32) (repeat 0%N n) 0%N) with 0%N; [apply N.bits_0|]. symmetry. generalize (i / 32)%nat. induction n as [|n IH]; intros [|x]; cbn; auto. Qed.
Lemma nth_lset_n (l : list N) : forall (i : nat) (x : N) (j : nat), nth j (lset l i x) 0%N = if ((j =? i) && (i <? length l))%nat%bool then x else nth j l 0%N.
Proof. intros i x j. rewrite <- !nth_default_eq. unfold nth_default. rewrite nth_error_lset. destruct ((j =? i) && (i <? length l))%nat%bool; reflexivity. Qed.
Lemma put_bit_ok w i (b : bool) : (i / 32 < length w)%nat -> exists w', put_bit w i (if b then 1 else 0)%N = Some w' /\ length w' = length w /\ forall j, bit w' j = bit w j || ((j =? i)%nat && b).
Proof.
  intros Hi. unfold put_bit. destruct (nth_error w (i / 32)) as [x|] eqn:E; [|apply nth_error_None in E; lia]. eexists. split; [reflexivity|]. split; [apply lset_length|].
  intros j. unfold bit. rewrite nth_lset_n. pose proof (Nat.mod_upper_bound i 32 ltac:(lia)) as Mi. pose proof (Nat.mod_upper_bound j 32 ltac:(lia)) as Mj.
  assert (Sm : (N.shiftl (if b then 1 else 0) (N.of_nat (i mod 32)) mod 2 ^ 32 = N.shiftl (if b then 1 else 0) (N.of_nat (i mod 32)))%N).
  { apply N.mod_small. rewrite N.shiftl_mul_pow2. assert (2 ^ N.of_nat (i mod 32) < 2 ^ 32)%N by (apply N.pow_lt_mono_r; lia). destruct b; lia. }
  destruct (Nat.eqb_spec (j / 32) (i / 32)) as [Ed|Ed]; cbn [andb].
  - destruct (Nat.ltb_spec (i / 32) (length w)); [|lia]. rewrite Sm, N.lor_spec. assert (nth (j / 32) w 0%N = x) as -> by (rewrite Ed; apply nth_error_nth with (d := 0%N) in E; exact E). f_equal.
    destruct (Nat.eqb_spec j i) as [->|Nij]; cbn [andb].
    + rewrite N.shiftl_spec_high'; [|lia]. rewrite N.sub_diag. destruct b; reflexivity.
    + assert (j mod 32 <> i mod 32)%nat by (intros K; apply Nij; rewrite (Nat.div_mod j 32), (Nat.div_mod i 32) by lia; congruence).
      destruct (N.lt_ge_cases (N.of_nat (j mod 32)) (N.of_nat (i mod 32))) as [L|L]; [apply N.shiftl_spec_low; exact L|]. rewrite N.shiftl_spec_high' by exact L.
      assert (N.of_nat (j mod 32) - N.of_nat (i mod 32) <> 0)%N by lia. destruct b; [|apply N.bits_0]. destruct (N.of_nat (j mod 32) - N.of_nat (i mod 32))%N eqn:Ex; [lia|]. reflexivity.
  - destruct (Nat.eqb_spec j i) as [->|]; [congruence|]. cbn [andb]. rewrite orb_false_r. reflexivity.
Qed.
Lemma get_bit_ok w i : (i / 32 < length w)%nat -> get_bit w i = Some (if bit w i then 1 else 0)%N.
Proof.
  intros Hi. unfold get_bit, bit. destruct (nth_error w (i / 32)) as [x|] eqn:E; [|apply nth_error_None in E; lia]. rewrite (nth_error_nth _ _ 0%N E). f_equal.
  change 1%N with (N.ones 1) at 1. rewrite N.land_ones. change (2 ^ 1)%N with 2%N. rewrite <- N.bit0_mod. rewrite N.shiftr_spec by lia. cbn [N.add]. destruct (N.testbit x (N.of_nat (i mod 32))); reflexivity.
Qed.
Lemma orw_ok a : forall b, length a = length b -> exists c, orw a b = Some c /\ length c = length a /\ forall i, bit c i = bit a i || bit b i.
Proof.
  intros b H. assert (G : exists c, orw a b = Some c /\ length c = length a /\ forall n, nth n c 0%N = N.lor (nth n a 0%N) (nth n b 0%N)).
  { revert b H. induction a as [|x a IH]; intros [|y b] H; try discriminate; cbn [orw]; [exists []; split; [reflexivity|]; split; [reflexivity|]; intros [|n]; reflexivity|].
    destruct (IH b) as (c & -> & Lc & Hc); [cbn in H; lia|]. eexists. split; [reflexivity|]. split; [cbn; congruence|]. intros [|n]; cbn; auto. }
  destruct G as (c & E & L & V). exists c. split; [exact E|]. split; [exact L|]. intros i. unfold bit. rewrite V, N.lor_spec. reflexivity.
Qed.
Lemma or_all_ok l : forall acc, (forall w, In w l -> length w = length acc) -> exists c, or_all acc l = Some c /\ length c = length acc /\ forall i, bit c i = true <-> bit acc i = true \/ exists w, In w l /\ bit w i = true.
Proof.
  induction l as [|w l IH]; intros acc H; cbn [or_all]; [exists acc; split; [reflexivity|]; split; [reflexivity|]; intros i; split; [auto|intros [A|(w & [] & _)]; exact A]|].
  destruct (orw_ok acc w) as (a & -> & La & Va); [symmetry; apply H; left; reflexivity|]. destruct (IH a) as (c & -> & Lc & Vc); [intros x Hx; rewrite La; apply H; right; exact Hx|]. exists c. split; [reflexivity|]. split; [congruence|].
  intros i. rewrite Vc, Va, orb_true_iff. split; [intros [[A|A]|(x & Hx & A)]; eauto 6 using in_eq, in_cons|intros [A|(x & [<-|Hx] & A)]; eauto].
Qed.

(** * One column, precisely *)
Lemma col_step_exact k p ncols n pv i dr dr' b : kern_ok k p -> kroom k p (S n) -> (i < ncols)%nat -> length dr = ncols ->
  (forall r, pv = Some r -> pivot_row p ncols i r) -> (forall j, 0 <= dv dr j < kb k p n) -> col_step k p pv i dr = Some (dr', b) ->
  ((if dv dr i =? 0 then dv dr i else Z.rem (dv dr i) p) = 0 \/ pv = None) -> forall j, eqp p (dv dr' j) (dv dr j).
Proof.
  intros HK HR Hi HL HPv HB E H j. destruct (col_step_ok k p ncols n pv i dr HK HR Hi HL HPv HB) as (d2 & b2 & E2 & _ & _ & _ & _ & _ & _ & e & HE). rewrite E in E2. injection E2 as <- <-.
  destruct H as [H| ->]; [|rewrite HE; exists 0; ring].
  unfold col_step in E. rewrite drd_dv in E by lia. cbn [obind] in E. rewrite H in E. destruct (dwr_ok dr i 0) as (d0 & E0 & L0 & V0); [lia|]. rewrite E0 in E. cbn [obind] in E. change (0 =? 0) with true in E. injection E as <- <-.
  rewrite V0. destruct (Nat.eqb_spec j i) as [->|]; [|reflexivity]. symmetry. assert (P2 : 2 <= p) by apply HK. destruct (Z.eqb_spec (dv dr i) 0) as [->|N]; [reflexivity|]. rewrite Z.rem_mod_nonneg in H by (try apply HB; lia). transitivity (dv dr i mod p); [symmetry; apply eqp_mod; lia|rewrite H; reflexivity].
Qed.

Section TraceLa.
Variables (k : kern) (p : Z) (ncl ncols nru : nat) (rr : nat -> option srow) (tr : list srow).
Hypothesis HP : prime p.
Hypothesis HK : kern_ok k p.
Hypothesis HR : kroom k p (S ncols).
Hypothesis HM : matrix_ok p ncl ncols rr tr.
Hypothesis Hnru : (ncl <= nru)%nat.
(** the rows start with a nonzero entry in a column with a reducer *)
Hypothesis Hlead : forall r, In r tr -> exists h x r', r = (h, x) :: r' /\ (h < ncl)%nat /\ 0 < x < p.

Definition forget (s : tshared) : shared := {| sh_pivs := ts_pivs s; sh_rows := map fst (ts_rows s) |}.
Definition used (w : list N) : vec -> Prop := fun v => exists j r, bit w j = true /\ rr j = Some r /\ v = rv r.
(** kept rows and the reducers recorded for them *)
Definition kset (rows : list (rstate * list N)) : vec -> Prop := fun v =>
  exists t c w r0, nth_error rows t = Some (DonePiv c, w) /\ nth_error tr t = Some r0 /\ (v = rv r0 \/ used w v).
Definition hd_bit (r0 : srow) (w : list N) : Prop := bit w (hcol r0) = true.
Definition tst (rows : list (rstate * list N)) (r0 : srow) (rs : rstate) (w : list N) : Prop :=
  match rs with
  | Todo r => r = r0
  | Red i dr n => span p (fun v => kset rows v \/ used w v) (fun j => rv r0 j - dv dr j) /\
      ((i <= hcol r0)%nat -> i = hcol r0 /\ exists x r', r0 = (hcol r0, x) :: r' /\ dv dr (hcol r0) = x) /\ ((hcol r0 < i)%nat -> hd_bit r0 w)
  | Cas dr r => span p (fun v => kset rows v \/ used w v) (fun j => rv r0 j - dv dr j) /\ hd_bit r0 w
  | DoneZero => True
  | DonePiv c => hd_bit r0 w /\ (ncl <= c)%nat
  end.
Record tinv (s : tshared) : Prop := {
  ti_row : forall t rs w, nth_error (ts_rows s) t = Some (rs, w) -> length w = nwords nru /\ exists r0, nth_error tr t = Some r0 /\ tst (ts_rows s) r0 rs w;
  ti_piv : forall c r, ts_pivs s c = Some r -> rr c = Some r \/ span p (kset (ts_rows s)) (rv r) /\ exists t w, nth_error (ts_rows s) t = Some (DonePiv c, w);
  ti_done : forall t c w, nth_error (ts_rows s) t = Some (DonePiv c, w) -> ts_pivs s c <> None;
  ti_uniq : forall t u c w w', nth_error (ts_rows s) t = Some (DonePiv c, w) -> nth_error (ts_rows s) u = Some (DonePiv c, w') -> t = u }.

Lemma kset_mono rows t rs w x : nth_error rows t = Some (rs, w) -> (forall c, rs = DonePiv c -> x = (rs, w)) -> forall v, kset rows v -> kset (lset rows t x) v.
Proof.
  intros E H v (u & c & w' & r0 & E1 & E2 & E3). exists u, c, w', r0. split; [|auto]. rewrite nth_error_lset. destruct (Nat.eqb_spec u t) as [->|]; cbn [andb]; [|exact E1].
  assert (L : (t < length rows)%nat) by (apply nth_error_Some; congruence). destruct (Nat.ltb_spec t (length rows)); [|lia]. rewrite E in E1. injection E1 as -> ->. rewrite (H c eq_refl). reflexivity.
Qed.
Lemma tst_mono rows rows' r0 rs w : (forall v, kset rows v -> kset rows' v) -> tst rows r0 rs w -> tst rows' r0 rs w.
Proof.
  intros H. destruct rs; cbn [tst]; auto.
  - intros (A & B). split; [|exact B]. eapply span_mono; [|exact A]. intros u [K|K]; apply span_in; auto.
  - intros (A & B). split; [|exact B]. eapply span_mono; [|exact A]. intros u [K|K]; apply span_in; auto.
Qed.
Lemma used_mono w w' : (forall j, bit w j = true -> bit w' j = true) -> forall v, used w v -> used w' v.
Proof. intros H v (j & r & A & B). exists j, r. auto. Qed.

Lemma rr_none c : (ncl <= c)%nat -> rr c = None.
Proof. intros H. destruct HM as (_ & H2 & _). destruct (rr c) eqn:E; [|reflexivity]. exfalso. assert (c < ncl)%nat by (apply H2; congruence). lia. Qed.

Lemma put1 w i : (i / 32 < length w)%nat -> exists w', put_bit w i 1 = Some w' /\ length w' = length w /\ (forall j, bit w j = true -> bit w' j = true) /\ bit w' i = true.
Proof.
  intros H. destruct (put_bit_ok w i true H) as (w' & E & L & V). exists w'. split; [exact E|]. split; [exact L|]. split; [intros j Hj; rewrite V, Hj; reflexivity|]. rewrite V, Nat.eqb_refl, orb_true_r. reflexivity.
Qed.

Lemma tstep_ok cnt t s : sinv k p ncl ncols rr tr cnt (forget s) -> tinv s ->
  exists s', sys_step_t k p ncl ncols t s = Some s' /\ sys_step k p ncl ncols t (forget s) = Some (forget s') /\ tinv s'.
Proof.
  intros SI TI. destruct SI as (HPv & HLe & _ & Hlen & HRows). cbn [forget sh_pivs sh_rows] in *. unfold sys_step_t, sys_step. cbn [forget sh_pivs sh_rows]. rewrite nth_error_map.
  destruct (nth_error (ts_rows s) t) as [[rs w]|] eqn:Et; cbn [option_map fst]; [|exists s; split; [reflexivity|]; split; [reflexivity|exact TI]].
  destruct (ti_row s TI t rs w Et) as (Lw & r0 & Er0 & HT). destruct (HRows t rs) as (r0' & m & Er0' & HI & _); [rewrite nth_error_map, Et; reflexivity|]. assert (r0' = r0) by congruence. subst r0'. clear Er0'.
  destruct (Hlead r0 (nth_error_In _ _ Er0)) as (h & x0 & rt & Ehd & Lh & Bx). assert (Hh : hcol r0 = h) by (rewrite Ehd; reflexivity).
  destruct HM as (Hle & Hrr & Hrok & Htr). assert (P2 : 2 <= p) by apply HK.
  assert (Hpn : forall c, (c < ncl)%nat -> ts_pivs s c <> None) by (intros c Hc; eapply le_pivs_none; [exact HLe|apply Hrr; exact Hc]).
  destruct (row_step_ok k p ncl ncols (ts_pivs s) (rv r0) m rs HP HK HR HPv Hpn Hle HI) as (P' & s' & m' & Es & HI' & _ & Hfin & HL' & HPv' & _).
  match goal with |- ?G => enough (X : forall GG : Prop, GG = G -> GG) by exact (X G eq_refl); intros GG HGG end.
  assert (Main : forall w', length w' = nwords nru ->
     (match uses p ncl ncols (ts_pivs s) rs with None => w' = w | Some i => put_bit w i 1 = Some w' end) ->
     (forall v, kset (ts_rows s) v -> kset (lset (ts_rows s) t (s', w')) v) ->
     tst (lset (ts_rows s) t (s', w')) r0 s' w' ->
     (P' = ts_pivs s /\ is_piv s' = is_piv rs \/ exists c r, s' = DonePiv c /\ is_piv rs = false /\ P' = pset (ts_pivs s) c r /\ ts_pivs s c = None /\ span p (kset (lset (ts_rows s) t (s', w'))) (rv r)) ->
     GG).
  { intros w' Lw' Hu Km HT' HPc. rewrite HGG. exists {| ts_pivs := P'; ts_rows := lset (ts_rows s) t (s', w') |}. unfold row_step_t. cbn [fst snd]. rewrite Es. split; [|split].
    - destruct (uses p ncl ncols (ts_pivs s) rs) as [i|]; [rewrite Hu; reflexivity|subst w'; reflexivity].
    - cbn [obind fst snd forget ts_pivs ts_rows]. f_equal. unfold forget. cbn [ts_pivs ts_rows]. f_equal. clear. revert t. induction (ts_rows s) as [|a l IH]; intros [|t]; cbn [lset map]; [reflexivity|reflexivity|reflexivity|]. f_equal. apply IH.
    - assert (Lt : (t < length (ts_rows s))%nat) by (apply nth_error_Some; congruence).
      assert (Nth : forall u, nth_error (lset (ts_rows s) t (s', w')) u = if (u =? t)%nat then Some (s', w') else nth_error (ts_rows s) u).
      { intros u. rewrite nth_error_lset. destruct (Nat.ltb_spec t (length (ts_rows s))); [|lia]. rewrite andb_true_r. reflexivity. }
      constructor; cbn [ts_pivs ts_rows].
      + intros u rs1 w1. rewrite Nth. destruct (Nat.eqb_spec u t) as [->|Nu]; [intros [= <- <-]; split; [exact Lw'|]; exists r0; auto|].
        intros Hu1. destruct (ti_row s TI u rs1 w1 Hu1) as (L1 & r1 & E1 & T1). split; [exact L1|]. exists r1. split; [exact E1|]. eapply tst_mono; [exact Km|exact T1].
      + assert (Old : forall c r, ts_pivs s c = Some r -> rr c = Some r \/ span p (kset (lset (ts_rows s) t (s', w'))) (rv r) /\ exists u w1, nth_error (lset (ts_rows s) t (s', w')) u = Some (DonePiv c, w1)).
        { intros c r Hc. destruct (ti_piv s TI c r Hc) as [K|(K1 & u & w1 & K2)]; [left; exact K|right]. split; [eapply span_mono; [|exact K1]; intros v Hv; apply span_in; apply Km; exact Hv|].
          exists u. destruct (Nat.eqb_spec u t) as [->|Nu].
          - assert (rs = DonePiv c) by congruence. subst rs. rewrite Nth, Nat.eqb_refl. exists w'. rewrite (Hfin eq_refl). reflexivity.
          - exists w1. rewrite Nth. destruct (Nat.eqb_spec u t); [contradiction|]. exact K2. }
        destruct HPc as [[-> _]|(c0 & r1 & -> & _ & -> & Hn & Sp)]; [exact Old|]. intros c r Hc. unfold pset in Hc. destruct (Nat.eqb_spec c c0) as [->|]; [|apply Old; exact Hc]. injection Hc as <-. right. split; [exact Sp|]. exists t, w'. rewrite Nth, Nat.eqb_refl. reflexivity.
      + intros u c w1. rewrite Nth. destruct HPc as [[-> Hp']|(c0 & r1 & -> & Hnp & -> & Hn & Sp)].
        * destruct (Nat.eqb_spec u t) as [->|Nu]; [|apply (ti_done s TI)]. intros [= -> ->]. cbn [is_piv] in Hp'. destruct rs; try discriminate. specialize (Hfin eq_refl). injection Hfin as ->. eapply (ti_done s TI); exact Et.
        * destruct (Nat.eqb_spec u t) as [->|Nu]; [intros [= <- <-]; unfold pset; rewrite Nat.eqb_refl; discriminate|]. intros Hu1. unfold pset. destruct (c =? c0)%nat; [discriminate|]. eapply (ti_done s TI); exact Hu1.
      + intros u v c w1 w2. rewrite !Nth. destruct HPc as [[-> Hp']|(c0 & r1 & -> & Hnp & -> & Hn & Sp)].
        * assert (Old : forall c w1, (s', w') = (DonePiv c, w1) -> rs = DonePiv c) by (intros c1 w3 [= -> ->]; cbn [is_piv] in Hp'; destruct rs; try discriminate; specialize (Hfin eq_refl); injection Hfin as ->; reflexivity).
          destruct (Nat.eqb_spec u t) as [->|Nu], (Nat.eqb_spec v t) as [->|Nv]; auto.
          -- intros [= Hc] Hv. rewrite (Old c w1) in Et by congruence. eapply (ti_uniq s TI); eassumption.
          -- intros Hu1 [= Hc]. rewrite (Old c w2) in Et by congruence. eapply (ti_uniq s TI); eassumption.
          -- apply (ti_uniq s TI).
        * destruct (Nat.eqb_spec u t) as [->|Nu], (Nat.eqb_spec v t) as [->|Nv]; auto.
          -- intros [= <- <-] Hv. exfalso. apply (ti_done s TI) in Hv. contradiction.
          -- intros Hu1 [= <- <-]. exfalso. apply (ti_done s TI) in Hu1. contradiction.
          -- apply (ti_uniq s TI). }
  clear HGG.
  assert (NoDone : forall (x : rstate * list N), is_piv rs = false -> forall v, kset (ts_rows s) v -> kset (lset (ts_rows s) t x) v).
  { intros x Hn. eapply kset_mono; [exact Et|]. intros c ->. discriminate. }
  destruct rs as [r|i dr n|dr r| |c].
  - (* Todo *)
    cbn [tst] in HT. subst r. cbn [row_step] in Es. rewrite Ehd in Es. rewrite <- Ehd in Es. destruct HI as ((ND & HC & HLc & _) & _ & _). destruct (scatter_ok p ncols r0 P2 ND HC HLc) as (dr & E & L & V & B). rewrite E in Es. cbn [obind fst] in Es. injection Es as <- <-.
    apply (Main w Lw eq_refl); [apply NoDone; reflexivity| |left; auto].
    cbn [tst]. split; [|split].
    + eapply span_eq; [apply span_zero|]. intros j. rewrite V. exists 0. unfold vzero. ring.
    + intros _. split; [symmetry; exact Hh|]. exists x0, rt. rewrite Hh. split; [exact Ehd|]. rewrite V. change h with (fst (h, x0)). rewrite (rv_in r0 (h, x0)); [reflexivity|exact ND|rewrite Ehd; left; reflexivity].
    + intros Hlt. rewrite Hh in Hlt. lia.
  - (* Red *)
    cbn [tst] in HT. destruct HT as (Sp & H1 & H2). cbn [row_step uses] in Es, Main. destruct (Nat.ltb_spec i ncols) as [Hi|Hi].
    + destruct HI as ((_ & Ld & Hlt & Hb & Hn) & _). assert (Room : kroom k p (S (S i))) by (eapply kroom_le; [|exact HK|exact HR]; lia).
      destruct (col_step_ok k p ncols (S i) (ts_pivs s i) i dr HK Room Hi Ld (HPv i) Hb) as (dr' & b & E & _ & _ & _ & _ & _ & _ & e & HE).
      rewrite E in Es. cbn [obind fst snd] in Es. injection Es as <- <-.
      pose proof (col_step_exact k p ncols (S i) (ts_pivs s i) i dr dr' b HK Room Hi Ld (HPv i) Hb E) as Ex. cbn [andb] in Main.
      assert (Nd : nth_error dr i = Some (dv dr i)) by (unfold dv; apply nth_error_nth'; lia). rewrite Nd in Main.
      set (d := if dv dr i =? 0 then dv dr i else Z.rem (dv dr i) p) in *.
      destruct (Nat.ltb_spec i ncl) as [Hc|Hc].
      * destruct (ts_pivs s i) as [q|] eqn:Ep; [|exfalso; apply (Hpn i Hc); exact Ep]. destruct (Z.eqb_spec d 0) as [Ed|Ed].
        -- apply (Main w Lw eq_refl); [apply NoDone; reflexivity| |left; auto]. cbn [tst]. split; [|split].
           ++ eapply span_mono; [|eapply span_eq; [exact Sp|intros j; rewrite (Ex (or_introl Ed) j); reflexivity]]. intros v [Hv|Hv]; apply span_in; [left; apply NoDone; auto|right; exact Hv].
           ++ intros Hle'. exfalso. destruct H1 as (-> & _); [lia|]. lia.
           ++ intros Hl. destruct (Nat.eq_dec i (hcol r0)) as [Ei|]; [|apply H2; lia]. exfalso. destruct H1 as (_ & x & r' & Er & Ev); [lia|]. assert (Ex0 : x = x0) by (rewrite Ehd in Er; injection Er; congruence). rewrite <- Ei, Ex0 in Ev. unfold d in Ed. rewrite Ev in Ed. destruct (Z.eqb_spec x0 0); [lia|]. rewrite Z.rem_small in Ed; lia.
        -- destruct (put1 w i) as (w' & Ew & Lw' & Inc & Bi); [rewrite Lw; apply nwords_lt; lia|]. apply (Main w' (eq_trans Lw' Lw) Ew); [apply NoDone; reflexivity| |left; auto]. cbn [tst]. split; [|split].
           ++ assert (Eq : rr i = Some q). { destruct (rr i) as [q'|] eqn:Eri; [|exfalso; apply (proj1 (Hrr i) Hc); exact Eri]. apply HLe in Eri. congruence. }
              eapply span_eq with (u := fun j => (rv r0 j - dv dr j) + e * rv q j); [|intros j; rewrite HE; exists 0; ring]. apply span_add.
              ** eapply span_mono; [|exact Sp]. intros v [Hv|Hv]; apply span_in; [left; apply NoDone; auto|right; eapply used_mono; [exact Inc|exact Hv]].
              ** apply span_scale. apply span_in. right. exists i, q. auto.
           ++ intros Hle'. exfalso. destruct H1 as (-> & _); [lia|]. lia.
           ++ intros Hl. destruct (Nat.eq_dec i (hcol r0)) as [Ei|]; [unfold hd_bit; rewrite <- Ei; exact Bi|]. apply Inc. apply H2. lia.
      * apply (Main w Lw eq_refl); [apply NoDone; reflexivity| |left; auto]. cbn [tst]. split; [|split].
        -- eapply span_mono with (S := fun v => kset (ts_rows s) v \/ used w v); [intros v [Hv|Hv]; apply span_in; [left; apply NoDone; auto|right; exact Hv]|].
           destruct (ts_pivs s i) as [q|] eqn:Ep.
           ++ eapply span_eq with (u := fun j => (rv r0 j - dv dr j) + e * rv q j); [|intros j; rewrite HE; exists 0; ring]. apply span_add; [exact Sp|]. apply span_scale. destruct (ti_piv s TI i q Ep) as [K|(K & _)]; [rewrite rr_none in K by exact Hc; discriminate|].
              eapply span_mono; [|exact K]. intros v Hv. apply span_in. left. exact Hv.
           ++ eapply span_eq; [exact Sp|]. intros j. rewrite HE. exists 0. ring.
        -- intros Hle'. lia.
        -- intros _. apply H2. lia.
    + cbn [andb] in Main. destruct n as [|n].
      * injection Es as <- <-. apply (Main w Lw eq_refl); [apply NoDone; reflexivity|exact I|left; auto].
      * destruct (gather_row k ncl (S n) dr) as [[|[c x] r]|]; cbn [obind] in Es; try discriminate. assert (Hhb : hd_bit r0 w) by (apply H2; lia).
        assert (Fin : forall r2, s' = Cas dr r2 -> P' = ts_pivs s -> tst (lset (ts_rows s) t (s', w)) r0 s' w /\ (P' = ts_pivs s /\ is_piv s' = is_piv (Red i dr (S n)))).
        { intros r2 -> ->. split; [|auto]. cbn [tst]. split; [|exact Hhb]. eapply span_mono; [|exact Sp]. intros v [Hv|Hv]; apply span_in; [left; apply NoDone; auto|right; exact Hv]. }
        destruct (x =? 1).
        -- injection Es as <- <-. destruct (Fin _ eq_refl eq_refl) as [A B]. apply (Main w Lw eq_refl); [apply NoDone; reflexivity|exact A|left; exact B].
        -- destruct (normalize_row k p ((c, x) :: r)) as [r'|]; cbn [obind] in Es; [|discriminate]. injection Es as <- <-. destruct (Fin _ eq_refl eq_refl) as [A B]. apply (Main w Lw eq_refl); [apply NoDone; reflexivity|exact A|left; exact B].
  - (* Cas *)
    cbn [tst] in HT. destruct HT as (Sp & Hb). destruct HI as (c & r' & b & Er & Hpr & _ & Hc & Ld & B & Hz & _ & _ & (y & Hy) & _). cbn [row_step uses] in Es, Main. rewrite Er in Es. rewrite <- Er in Es. cbn [fst] in Es. destruct (ts_pivs s c) as [q|] eqn:Ep.
    + injection Es as <- <-. apply (Main w Lw eq_refl); [apply NoDone; reflexivity| |left; auto]. cbn [tst]. split; [|split; [intros K; rewrite Hh in K; lia|intros _; exact Hb]].
      eapply span_mono; [|exact Sp]. intros v [Hv|Hv]; apply span_in; [left; apply NoDone; auto|right; exact Hv].
    + injection Es as <- <-. apply (Main w Lw eq_refl); [apply NoDone; reflexivity|split; assumption|]. right. exists c, r. split; [reflexivity|]. split; [reflexivity|]. split; [reflexivity|]. split; [exact Ep|].
      assert (Lt : (t < length (ts_rows s))%nat) by (apply nth_error_Some; congruence).
      assert (In0 : forall v, v = rv r0 \/ used w v -> kset (lset (ts_rows s) t (DonePiv c, w)) v).
      { intros v Hv. exists t, c, w, r0. split; [|auto]. rewrite nth_error_lset, Nat.eqb_refl. destruct (Nat.ltb_spec t (length (ts_rows s))); [reflexivity|lia]. }
      eapply span_eq with (u := fun j => y * (rv r0 j - (rv r0 j - dv dr j))); [|intros j; rewrite (Hy j); exists 0; ring]. apply (span_scale p _ y (fun j => rv r0 j - (rv r0 j - dv dr j))). apply span_sub; [apply span_in, In0; auto|]. eapply span_mono; [|exact Sp]. intros v [Hv|Hv]; apply span_in; [apply NoDone; auto|apply In0; auto].
  - cbn [row_step uses] in Es, Main. injection Es as <- <-. apply (Main w Lw eq_refl); [apply NoDone; reflexivity|exact I|left; auto].
  - cbn [row_step uses] in Es, Main. injection Es as <- <-. apply (Main w Lw eq_refl); [|exact HT|left; auto]. eapply kset_mono; [exact Et|]. auto.
Qed.

Lemma trun_ok sched : forall cnt s, sinv k p ncl ncols rr tr cnt (forget s) -> tinv s ->
  exists s', sys_run_t k p ncl ncols sched s = Some s' /\ sys_run k p ncl ncols sched (forget s) = Some (forget s') /\ tinv s'.
Proof.
  induction sched as [|t ts IH]; intros cnt s SI TI; cbn [sys_run_t sys_run]; [exists s; auto|].
  destruct (tstep_ok cnt t s SI TI) as (s1 & -> & E1 & T1). rewrite E1. cbn [obind]. destruct HM as (Hle & Hrr & _). destruct (sys_step_ok k p ncl ncols rr tr cnt t (forget s) HP HK HR Hle (fun c => proj1 (Hrr c)) SI) as (s2 & E2 & SI2). rewrite E1 in E2. injection E2 as <-.
  apply (IH _ s1 SI2 T1).
Qed.
Lemma init_tinv : tinv (init_t nru rr tr).
Proof.
  constructor; cbn [init_t ts_rows ts_pivs].
  - intros t rs w H. rewrite nth_error_map in H. destruct (nth_error tr t) as [r|] eqn:E; [|discriminate]. injection H as <- <-. split; [apply repeat_length|]. exists r. split; reflexivity.
  - auto.
  - intros t c w H. rewrite nth_error_map in H. destruct (nth_error tr t); discriminate.
  - intros t u c w w' H. rewrite nth_error_map in H. destruct (nth_error tr t); discriminate.
Qed.
Lemma forget_init : forget (init_t nru rr tr) = init_shared rr tr.
Proof. unfold forget, init_t, init_shared. cbn [ts_pivs ts_rows]. rewrite map_map. reflexivity. Qed.
Theorem traced_run sched : exists s, sys_run_t k p ncl ncols sched (init_t nru rr tr) = Some s /\ sys_run k p ncl ncols sched (init_shared rr tr) = Some (forget s) /\ tinv s /\ length (ts_rows s) = length tr.
Proof.
  destruct (trun_ok sched (fun _ => O) (init_t nru rr tr)) as (s & E1 & E2 & T); [rewrite forget_init; apply init_sinv; exact HM|exact init_tinv|]. rewrite forget_init in E2. exists s. split; [exact E1|]. split; [exact E2|]. split; [exact T|].
  destruct (run_ok k p ncl ncols rr tr sched HP HK HR HM) as (s2 & E3 & (_ & _ & _ & L & _)). rewrite E2 in E3. injection E3 as <-. cbn [forget sh_rows] in L. rewrite map_length in L. exact L.
Qed.

(** number of rows of an echelon array *)
Lemma rows_desc_len (Q : nat -> option srow) n : length (rows_desc ncl Q n) = length (filter (fun c => match Q c with Some _ => true | None => false end) (seq ncl n)).
Proof.
  induction n as [|n IH]; [reflexivity|]. cbn [rows_desc]. rewrite seq_S, filter_app, app_length. cbn [filter]. rewrite <- IH. destruct (Q (ncl + n)%nat); cbn [length]; lia.
Qed.
Definition piv_cols (rows : list (rstate * list N)) : list nat := flat_map (fun x => match fst x with DonePiv c => [c] | _ => [] end) rows.
Lemma piv_cols_in rows c : In c (piv_cols rows) <-> exists t w, nth_error rows t = Some (DonePiv c, w).
Proof.
  unfold piv_cols. rewrite in_flat_map. split.
  - intros ((rs & w) & Hin & Hc). cbn [fst] in Hc. destruct rs; try destruct Hc; try contradiction. subst. apply In_nth_error in Hin as (t & Ht). eauto.
  - intros (t & w & Ht). exists (DonePiv c, w). split; [eapply nth_error_In; exact Ht|left; reflexivity].
Qed.
Lemma piv_cols_len rows : length (piv_cols rows) = length (filter (fun x => is_piv (fst x)) rows).
Proof. induction rows as [|[rs w] rows IH]; [reflexivity|]. unfold piv_cols in *. cbn [flat_map filter fst]. rewrite app_length, IH. destruct rs; reflexivity. Qed.
Lemma piv_cols_nd rows : (forall t u c w w', nth_error rows t = Some (DonePiv c, w) -> nth_error rows u = Some (DonePiv c, w') -> t = u) -> NoDup (piv_cols rows).
Proof.
  induction rows as [|[rs w] rows IH]; intros H; [constructor|]. assert (IH' : NoDup (piv_cols rows)) by (apply IH; intros t u c w1 w2 H1 H2; specialize (H (S t) (S u) c w1 w2 H1 H2); congruence).
  unfold piv_cols in *. cbn [flat_map fst]. destruct rs; try exact IH'. cbn [app]. constructor; [|exact IH']. intros K. apply (piv_cols_in rows) in K as (t & w1 & Ht). specialize (H O (S t) c w w1 eq_refl Ht). discriminate.
Qed.

(** the finished run: as many new rows as kept ones, all in the span of the kept rows and the recorded reducers *)
Theorem traced_result sched s : sys_run_t k p ncl ncols sched (init_t nru rr tr) = Some s -> forallb (fun x => finished (fst x)) (ts_rows s) = true ->
  exists l, interreduce k p ncl ncols (ncols - ncl) (drop_old ncl (ts_pivs s)) = Some l /\ echelon k p ncl ncols rr tr sched = Some l /\
  length l = length (filter (fun x => is_piv (fst x)) (ts_rows s)) /\ forall r, In r l -> span p (kset (ts_rows s)) (rv r).
Proof.
  intros E HF. destruct (traced_run sched) as (s0 & E0 & E1 & T & L). rewrite E in E0. injection E0 as <-. pose proof HM as (Hle & Hrr & Hrok & _).
  assert (HF' : forallb finished (sh_rows (forget s)) = true). { cbn [forget sh_rows]. rewrite forallb_forall in *. intros x Hx. apply in_map_iff in Hx as (y & <- & Hy). apply HF. exact Hy. }
  destruct (run_ok k p ncl ncols rr tr sched HP HK HR HM) as (s2 & E3 & (HPv & HLe & _)). rewrite E1 in E3. injection E3 as <-. cbn [forget sh_pivs] in HPv, HLe.
  set (P := ts_pivs s) in *.
  assert (HPd : pivots_ok p ncols (drop_old ncl P)). { intros c r. unfold drop_old. destruct (c <? ncl)%nat; [discriminate|apply HPv]. }
  destruct (interreduce_ok k p ncl ncols HK HR (ncols - ncl) (drop_old ncl P)) as (l & Q & El & Q1 & Q2 & Q3 & Q4 & Q5 & Q6); auto; [lia| | |].
  - intros c r Hc Ec. exfalso. destruct (HPd c r Ec) as (_ & _ & HL & r' & -> & _). specialize (HL (c, 1) (or_introl eq_refl)). cbn in HL. lia.
  - intros c. unfold drop_old. destruct (Nat.ltb_spec c ncl); [congruence|auto].
  - exists l. split; [exact El|]. split; [unfold echelon; rewrite E1; cbn [obind]; rewrite HF'; exact El|]. split.
    + rewrite Q6, rows_desc_len, <- piv_cols_len. apply Permutation_length. apply NoDup_Permutation; [apply NoDup_filter, seq_NoDup|apply piv_cols_nd, (ti_uniq s T)|].
      intros c. rewrite filter_In, in_seq, piv_cols_in. split.
      * intros ((Hc1 & Hc2) & Hq). destruct (Q c) as [r|] eqn:EQ; [|discriminate]. assert (N : drop_old ncl P c <> None) by (intros K; apply Q3 in K; congruence). unfold drop_old in N. destruct (Nat.ltb_spec c ncl) as [K|K]; [congruence|]. destruct (P c) as [r2|] eqn:EP; [|congruence]. destruct (ti_piv s T c r2 EP) as [K2|(_ & K2)]; [rewrite rr_none in K2 by lia; discriminate|exact K2].
      * intros (t & w & Ht). pose proof (ti_done s T t c w Ht) as Hn. destruct (ti_row s T t _ w Ht) as (_ & r0 & _ & (_ & Hc)). fold P in Hn. destruct (P c) as [r|] eqn:EP; [|congruence]. destruct (HPv c r EP) as (_ & _ & HL & r' & Er & _). specialize (HL (c, 1)). rewrite Er in HL. specialize (HL (or_introl eq_refl)). cbn in HL. split; [lia|].
        destruct (Q c) eqn:EQ; [reflexivity|]. apply Q3 in EQ. unfold drop_old in EQ. destruct (Nat.ltb_spec c ncl); [lia|]. congruence.
    + intros r Hr. assert (Hq : span p (pset_of Q) (rv r)). { rewrite Q6 in Hr. apply span_in. clear - Hr. induction (ncols - ncl)%nat as [|n IH]; [destruct Hr|]. cbn [rows_desc] in Hr. destruct (Q (ncl + n)%nat) as [q|] eqn:EQ; [|apply IH; exact Hr]. destruct Hr as [<-|Hr]; [exists (ncl + n)%nat, q; auto|apply IH; exact Hr]. }
      apply Q4 in Hq. eapply span_mono; [|exact Hq]. intros u (c & r1 & Ec & ->). unfold drop_old in Ec. destruct (Nat.ltb_spec c ncl) as [K|K]; [discriminate|]. destruct (ti_piv s T c r1 Ec) as [K2|(K2 & _)]; [rewrite rr_none in K2 by lia; discriminate|exact K2].
Qed.
End TraceLa.
