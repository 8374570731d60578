From Coq Require Import NArith ZArith Arith List Bool Lia Sorted.
From Verif Require Import MonoSpec MonoProps HilbSpec HilbModel HilbProofs HilbProps ModInvModel MonoModel FglmModel PrintModel DenseSpec DenseModel DenseProofs.
Import ListNotations.
Open Scope nat_scope.

Lemma nth_error_nth2 {A} (l : list A) i d x : nth_error l i = Some x -> nth i l d = x.
Proof. intros H. apply nth_error_nth with (d := d) in H. exact H. Qed.

Section Run.
Variables (nv nev : nat) (mb : list mono) (lens : list nat) (leads : list mono) (junk : nat).
Hypothesis Hlt : nev < nv.
Hypothesis Hmb : Forall (fun b => length b = nv - nev) mb.
Hypothesis Hsort : StronglySorted drl_lt mb.
Hypothesis Hlens : length lens = length leads.
Hypothesis Hlen_le : forall i, nth i lens 0 <= length mb.
(** the monomials that can follow the i-th leading monomial are among the first ones *)
Hypothesis Hroom : forall i lm m, nth_error leads i = Some lm -> standard (nv - nev) leads m -> drl_lt m lm -> In m (firstn (nth i lens 0) mb).

Definition val (Bs : list (list poly)) (i : nat) (m : mono) (k : nat) : N := coef (tl (nth i (nth k Bs []) [])) m.
Definition cell_ok (i k : nat) (v : N) (x : option (option N)) : Prop := x = Some (Some v) \/ (i < junk /\ k = 2 /\ v = 0%N /\ x = Some None).
Definition arr_ok (Bs : list (list poly)) (i : nat) (m : mono) (L : nat) (c : cells) : Prop := length c = L /\ forall k, k < L -> cell_ok i k (val Bs i m k) (nth_error c k).
Definition pol_ok (Bs : list (list poly)) (i len L : nat) (f : list cells) : Prop :=
  length f = len /\ forall j (m : mono) (c : cells), nth_error mb j = Some m -> nth_error f j = Some c -> arr_ok Bs i m L c.
Definition pols_ok (Bs : list (list poly)) (L : nat -> nat) (pols : list (list cells)) : Prop :=
  length pols = length lens /\ forall i (f : list cells), nth_error pols i = Some f -> pol_ok Bs i (nth i lens 0) (L i) f.

Lemma val_nil i m k : val [] i m k = 0%N.
Proof. unfold val. destruct k; destruct i; reflexivity. Qed.
Lemma val_out Bs i m k : length Bs <= k -> val Bs i m k = 0%N.
Proof. intros H. unfold val. rewrite (nth_overflow Bs) by exact H. destruct i; reflexivity. Qed.
Lemma val_other Bs B i m k : k <> length Bs -> val (Bs ++ [B]) i m k = val Bs i m k.
Proof.
  intros H. unfold val. destruct (Nat.lt_ge_cases k (length Bs)).
  - rewrite app_nth1 by exact H0. reflexivity.
  - rewrite !nth_overflow with (n := k) by (rewrite ?app_length; cbn; lia). reflexivity.
Qed.
Lemma val_new Bs B i m : val (Bs ++ [B]) i m (length Bs) = coef (tl (nth i B [])) m.
Proof. unfold val. rewrite app_nth2, Nat.sub_diag by lia. reflexivity. Qed.

(** a basis with the same leading monomials *)
Definition fit (B : list poly) : Prop := reduced (nv - nev) B /\ map lead B = leads.
Lemma fit_tail B i f t : fit B -> nth_error B i = Some f -> In t (tl f) -> In (snd t) (firstn (nth i lens 0) mb).
Proof.
  intros [[R _] E] Hi Ht. rewrite Forall_forall in R. destruct (R f (nth_error_In _ _ Hi)) as (N0 & D & _ & St). rewrite E in St.
  apply (Hroom i (lead f)).
  - rewrite <- E. apply map_nth_error. exact Hi.
  - apply St. exact Ht.
  - destruct f as [|a f]; [congruence|]. inversion D as [|? ? D1 D2]. subst. rewrite Forall_forall in D2. cbn. apply D2. exact Ht.
Qed.
Lemma set_pols_ok np (pols : list (list cells)) : forall (B : list poly) D, length pols <= length B ->
  (forall i f, nth_error pols i = Some f -> exists g, nth_error B i = Some g /\ g <> [] /\ decreasing (tl g) /\ length f <= length mb /\ (forall c, In c f -> np < length c) /\ (forall t, In t (tl g) -> In (snd t) (firstn (length f) mb))) ->
  exists pols', set_pols nv nev mb np (map (kept nev) B ++ D) pols = Some pols' /\ length pols' = length pols /\
    forall i f', nth_error pols' i = Some f' -> exists f, nth_error pols i = Some f /\ length f' = length f /\
      forall j (m : mono) (c' : cells), nth_error mb j = Some m -> nth_error f' j = Some c' -> exists c : cells, nth_error f j = Some c /\ length c' = length c /\
        forall k, nth_error c' k = if k =? np then match find_m m (tl (nth i B [])) with Some v => Some (Some v) | None => nth_error c k end else nth_error c k.
Proof.
  induction pols as [|f pols IH]; intros B D HL H.
  - exists []. split; [reflexivity|]. split; [reflexivity|]. intros i f' E. destruct i; discriminate.
  - destruct B as [|g B]; [cbn in HL; lia|]. cbn [map app set_pols]. destruct (H 0 f eq_refl) as (g' & E & N0 & Dg & Lf & Hc & Ht). cbn in E. injection E as <-. destruct g as [|t0 g]; [congruence|]. cbn [kept map tl] in *. unfold kept. cbn [map].
    destruct (set_terms_ok nv nev mb np Hlt Hmb Hsort g (length f) f) as (f' & A1 & A2 & A3); auto. rewrite A1. cbn [obind].
    destruct (IH B D) as (p' & C1 & C2 & C3); [cbn in HL; lia|intros i x Ex; apply (H (S i) x Ex)|]. unfold kept in C1. rewrite C1. cbn [obind].
    exists (f' :: p'). split; [reflexivity|]. split; [cbn; lia|]. intros [|i] x Ex; cbn in Ex.
    + injection Ex as <-. exists f. split; [reflexivity|]. split; [exact A2|]. intros j m c' Em Ec. destruct (nth_error f j) as [c|] eqn:Ef.
      * exists c. split; [reflexivity|]. destruct (A3 j m c Em Ef) as (c2 & X1 & X2 & X3). rewrite X1 in Ec. injection Ec as <-. split; [exact X2|]. cbn [nth tl]. exact X3.
      * apply nth_error_None in Ef. assert (nth_error f' j <> None) as Q by congruence. apply nth_error_Some in Q. lia.
    + cbn [nth_error nth]. apply C3. exact Ex.
Qed.
(** storing a fitting basis in the next column *)
Lemma set_ok Bs B D (L : nat -> nat) pols : pols_ok Bs L pols -> fit B -> (forall i, length Bs < L i) ->
  exists pols', set_pols nv nev mb (length Bs) (map (kept nev) B ++ D) pols = Some pols' /\ pols_ok (Bs ++ [B]) L pols'.
Proof.
  intros [Hl Hp] F HL. assert (LB : length B = length lens) by (destruct F as [_ F]; rewrite <- (map_length lead), F; congruence).
  destruct (set_pols_ok (length Bs) pols B D) as (p' & A1 & A2 & A3).
  - lia.
  - intros i f Ef. destruct (Hp i f Ef) as [Lf Hf]. assert (Hi : i < length B) by (assert (Q : nth_error pols i <> None) by congruence; apply nth_error_Some in Q; lia).
    destruct (nth_error B i) as [g|] eqn:Eg; [|apply nth_error_None in Eg; lia]. exists g. split; [reflexivity|]. destruct F as [[R0 R1] E]. pose proof R0 as R. rewrite Forall_forall in R. destruct (R g (nth_error_In _ _ Eg)) as (N0 & Dg & _ & _).
    split; [exact N0|]. split; [destruct g; [constructor|inversion Dg; assumption]|]. split; [rewrite Lf; apply Hlen_le|]. split.
    + intros c Ic. apply In_nth_error in Ic as [j Ej]. assert (j < length mb) by (assert (Q : nth_error f j <> None) by congruence; apply nth_error_Some in Q; specialize (Hlen_le i); lia).
      destruct (nth_error mb j) as [m|] eqn:Em; [|apply nth_error_None in Em; lia]. destruct (Hf j m c Em Ej) as [-> _]. apply HL.
    + intros t It. rewrite Lf. eapply fit_tail; [split; [split; [exact R0|exact R1]|exact E]|exact Eg|exact It].
  - exists p'. split; [exact A1|]. split; [lia|]. intros i f' Ef'. destruct (A3 i f' Ef') as (f & Ef & Lf' & C). destruct (Hp i f Ef) as [Lf Hf]. split; [lia|].
    intros j m c' Em Ec'. destruct (C j m c' Em Ec') as (c & Ec & Lc & K). destruct (Hf j m c Em Ec) as [Lc0 Hc]. split; [lia|]. intros k Hk. rewrite K. specialize (Hc k Hk).
    destruct (Nat.eqb_spec k (length Bs)) as [->|NE].
    + rewrite val_new, coef_find. rewrite val_out in Hc by lia. destruct (find_m m (tl (nth i B []))); [left; reflexivity|exact Hc].
    + rewrite val_other by exact NE. exact Hc.
Qed.
Lemma init_ok alloc : pols_ok [] (fun _ => alloc) (s_pols (gb_modpoly_init alloc lens)).
Proof.
  cbn. split; [apply map_length|]. intros i f Ef. rewrite nth_error_map in Ef. destruct (nth_error lens i) as [n|] eqn:En; [|discriminate]. injection Ef as <-. rewrite (nth_error_nth2 _ _ 0 _ En). split; [apply repeat_length|].
  intros j m c _ Ec. apply nth_error_In in Ec. apply repeat_spec in Ec. subst c. split; [apply repeat_length|]. intros k Hk. rewrite val_nil. left. apply nth_error_repeat. exact Hk.
Qed.
Definition Lof (alloc i : nat) : nat := if alloc =? 3 then (if i <? junk then 2 else 3) else alloc.
Lemma nth_resized (c : cells) old na k : length c <= old -> old <= na -> k < na ->
  nth_error (zero_from old (resize None na c)) k = if k <? length c then nth_error c k else if k <? old then Some None else Some (Some 0%N).
Proof.
  intros H1 H2 Hk. unfold zero_from, resize. rewrite (firstn_all2 c) by lia. rewrite app_length, repeat_length. rewrite firstn_app, (firstn_all2 c) by lia.
  assert (Lr : length (firstn (old - length c) (repeat (@None N) (na - length c))) = old - length c) by (rewrite firstn_length, repeat_length; lia).
  destruct (Nat.ltb_spec k (length c)) as [A|A].
  - rewrite <- app_assoc, nth_error_app1 by exact A. reflexivity.
  - destruct (Nat.ltb_spec k old) as [B|B].
    + rewrite nth_error_app1 by (rewrite app_length; lia). rewrite nth_error_app2 by exact A. assert (Q : nth_error (firstn (old - length c) (repeat (@None N) (na - length c))) (k - length c) = nth_error (repeat None (na - length c)) (k - length c)).
      { rewrite <- (firstn_skipn (old - length c) (repeat None (na - length c))) at 2. rewrite nth_error_app1 by lia. reflexivity. }
      rewrite Q. apply nth_error_repeat. lia.
    + rewrite nth_error_app2 by (rewrite app_length; lia). rewrite app_length, Lr. apply nth_error_repeat. lia.
Qed.
Lemma resized_length (c : cells) old na : length c <= old -> old <= na -> length (zero_from old (resize None na c)) = na.
Proof. intros H1 H2. unfold zero_from, resize. rewrite (firstn_all2 c) by lia. rewrite !app_length, repeat_length, firstn_length, !app_length, !repeat_length. lia. Qed.
(** the first reallocation, from the polynomial number junk on *)
Lemma realloc_first s Bs : s_alloc s = 2 -> length Bs <= 2 -> pols_ok Bs (fun _ => 2) (s_pols s) -> pols_ok Bs (Lof 3) (s_pols (gb_modpoly_realloc 1 junk s)).
Proof.
  intros Ea HB [Hl Hp]. unfold gb_modpoly_realloc. rewrite Ea. cbn [s_pols Nat.add]. split; [rewrite app_length, map_length, firstn_length, skipn_length; lia|].
  intros i f Ef. unfold Lof. cbn [Nat.eqb]. destruct (Nat.ltb_spec i junk) as [A|A].
  - assert (Ef' : nth_error (s_pols s) i = Some f).
    { destruct (Nat.lt_ge_cases i (length (s_pols s))).
      - rewrite nth_error_app1 in Ef by (rewrite firstn_length; lia). rewrite <- (firstn_skipn junk (s_pols s)). rewrite nth_error_app1 by (rewrite firstn_length; lia). exact Ef.
      - exfalso. rewrite skipn_all2, app_nil_r in Ef by lia. assert (Q : nth_error (firstn junk (s_pols s)) i <> None) by congruence. apply nth_error_Some in Q. rewrite firstn_length in Q. lia. }
    exact (Hp i f Ef').
  - assert (Hi : i < length (s_pols s)). { assert (Q : nth_error (firstn junk (s_pols s) ++ map (map (fun c : cells => zero_from 2 (resize None 3 c))) (skipn junk (s_pols s))) i <> None) by congruence. apply nth_error_Some in Q. rewrite app_length, map_length, firstn_length, skipn_length in Q. lia. }
    rewrite nth_error_app2 in Ef by (rewrite firstn_length; lia). rewrite firstn_length, Nat.min_l in Ef by lia. rewrite nth_error_map in Ef. destruct (nth_error (skipn junk (s_pols s)) (i - junk)) as [f0|] eqn:E0; [|discriminate]. injection Ef as <-.
    assert (Ef0 : nth_error (s_pols s) i = Some f0). { rewrite <- (firstn_skipn junk (s_pols s)). rewrite nth_error_app2 by (rewrite firstn_length; lia). rewrite firstn_length, Nat.min_l by lia. exact E0. }
    destruct (Hp i f0 Ef0) as [Lf Hf]. split; [rewrite map_length; exact Lf|]. intros j m c Em Ec. rewrite nth_error_map in Ec. destruct (@nth_error cells f0 j) as [c0|] eqn:Ec0; [|discriminate]. injection Ec as <-. destruct (Hf j m c0 Em Ec0) as [Lc Hc].
    split; [apply resized_length; lia|]. intros k Hk. rewrite nth_resized by lia. rewrite Lc. destruct (Nat.ltb_spec k 2) as [K|K]; [apply Hc; exact K|]. left. rewrite val_out by lia. reflexivity.
Qed.
Lemma realloc_later new s Bs : 1 <= new -> 3 <= s_alloc s -> length Bs < s_alloc s -> pols_ok Bs (Lof (s_alloc s)) (s_pols s) -> pols_ok Bs (Lof (s_alloc s + new)) (s_pols (gb_modpoly_realloc new 0 s)).
Proof.
  intros H1 H3 HB [Hl Hp]. unfold gb_modpoly_realloc. cbn [s_pols firstn skipn app]. split; [rewrite map_length; exact Hl|]. intros i f Ef. unfold Lof at 1. destruct (Nat.eqb_spec (s_alloc s + new) 3); [lia|].
  rewrite nth_error_map in Ef. destruct (nth_error (s_pols s) i) as [f0|] eqn:E0; [|discriminate]. injection Ef as <-. destruct (Hp i f0 E0) as [Lf Hf]. split; [rewrite map_length; exact Lf|].
  intros j m c Em Ec. rewrite nth_error_map in Ec. destruct (@nth_error cells f0 j) as [c0|] eqn:Ec0; [|discriminate]. injection Ec as <-. destruct (Hf j m c0 Em Ec0) as [Lc Hc].
  assert (LL : Lof (s_alloc s) i <= s_alloc s /\ (Lof (s_alloc s) i < s_alloc s -> i < junk /\ Lof (s_alloc s) i = 2 /\ s_alloc s = 3)).
  { unfold Lof. destruct (Nat.eqb_spec (s_alloc s) 3) as [->|]; [|lia]. destruct (Nat.ltb_spec i junk); lia. }
  split; [apply resized_length; lia|]. intros k Hk. rewrite nth_resized by lia. rewrite Lc. destruct (Nat.ltb_spec k (Lof (s_alloc s) i)) as [K|K]; [apply Hc; exact K|].
  destruct (Nat.ltb_spec k (s_alloc s)) as [K2|K2].
  - right. destruct LL as [_ LL]. destruct LL as (A & B & C); [lia|]. repeat split; [exact A|lia|apply val_out; lia].
  - left. rewrite val_out by lia. reflexivity.
Qed.

(** ** One round *)
Lemma layout_first (m : mono) : nev <> 0 -> nth_error (layout nev (mone nev ++ m)) 0 = Some 0%N.
Proof.
  intros H. unfold layout. destruct (Nat.eqb_spec nev 0); [lia|]. cbn [nth_error]. f_equal. rewrite firstn_app. unfold mone at 1 2. rewrite repeat_length, Nat.sub_diag. cbn [firstn]. rewrite app_nil_r. clear. rewrite firstn_all2 by (rewrite repeat_length; lia). induction nev as [|n IH]; [reflexivity|]. cbn [repeat]. change (mdeg (0%N :: repeat 0%N n)) with (0 + mdeg (repeat 0%N n))%N. rewrite IH. reflexivity.
Qed.
Lemma compact_ok B rows : holds nv nev B rows -> Forall (fun f : poly => f <> []) B -> compact nev rows = Some (map (kept nev) B).
Proof.
  induction 1 as [|f B rows H IH|r B rows Hd H IH]; intros F; [reflexivity| |].
  - inversion F as [|? ? F1 F2]. subst. cbn [compact map]. destruct f as [|t f]; [congruence|]. unfold in_elim, kept. cbn [map]. destruct (Nat.eqb_spec nev 0) as [E|NE].
    + cbn [obind]. rewrite IH by exact F2. reflexivity.
    + rewrite layout_first by exact NE. cbn [obind]. rewrite IH by exact F2. reflexivity.
  - cbn [compact]. destruct Hd as (c & e & l & -> & Le & Hd & NE). unfold in_elim. destruct (Nat.eqb_spec nev 0); [lia|]. unfold layout at 1. destruct (Nat.eqb_spec nev 0); [lia|]. cbn [nth_error obind].
    destruct (N.eqb_spec (mdeg (firstn nev e)) 0); [congruence|]. cbn [obind]. rewrite IH by exact F. reflexivity.
Qed.
Lemma lms_kept B : reduced (nv - nev) B -> omap (lm_of nv nev) (map (kept nev) B) = Some (map (fun f => mone nev ++ lead f) B).
Proof.
  intros [R _]. revert R. generalize (map lead B). intros LL R. clear - R Hlt. induction R as [|f B (N0 & _ & Fm & _) R IH]; [reflexivity|]. cbn [map omap].
  destruct f as [|t f]; [congruence|]. unfold lm_of at 1, kept at 1. cbn [map]. inversion Fm as [|? ? [Lt _] _]. subst. rewrite exps_layout by (try lia; rewrite app_length; unfold mone; rewrite repeat_length; lia). cbn [obind]. rewrite IH. reflexivity.
Qed.
Lemma skip_lead (B : list poly) : map (skipn nev) (map (fun f => mone nev ++ lead f) B) = map lead B.
Proof. clear. rewrite map_map. apply map_ext. intros f. rewrite skipn_app. unfold mone. rewrite skipn_all2, repeat_length, Nat.sub_diag by (rewrite repeat_length; lia). reflexivity. Qed.
Lemma same_lists (a : list mono) : forall b, length a = length b -> forallb (fun ab => if list_eq_dec N.eq_dec (fst ab) (snd ab) then true else false) (combine a b) = true <-> a = b.
Proof.
  induction a as [|x a IH]; intros [|y b] L; cbn in L; try lia; [tauto|]. cbn [combine forallb fst snd]. rewrite andb_true_iff, IH by lia. destruct (list_eq_dec N.eq_dec x y) as [->|NE]; split; [intros [_ ->]; reflexivity|intros H; injection H as ->; auto|intros [X _]; discriminate|intros H; congruence].
Qed.
Lemma put_firstn {A} (l : list A) : forall i x l', put l i x = Some l' -> firstn (S i) l' = firstn i l ++ [x] /\ length l' = length l.
Proof.
  induction l as [|a l IH]; intros i x l' H; [destruct i; discriminate|]. destruct i as [|i]; cbn [put] in H.
  - injection H as <-. split; reflexivity.
  - destruct (put l i x) as [r|] eqn:E; [|discriminate]. injection H as <-. destruct (IH i x r E) as [A1 A2]. split; [change (firstn (S (S i)) (a :: r)) with (a :: firstn (S i) r); rewrite A1; reflexivity|cbn; lia].
Qed.
Definition inv (k : nat) (s : gbs) (ps : list Z) (Bs : list (list poly)) : Prop :=
  s_np s = length Bs /\ length ps = length Bs /\ length Bs <= S k /\ k + 2 <= s_alloc s /\ 3 <= s_alloc s /\ pols_ok Bs (Lof (s_alloc s)) (s_pols s) /\
  firstn (length Bs) (s_primes s) = ps /\ length (s_primes s) = s_alloc s.
Lemma reduced_nonempty n B : reduced n B -> Forall (fun f : poly => f <> []) B.
Proof. intros [R _]. eapply Forall_impl; [|exact R]. intros f (N0 & _). exact N0. Qed.
Lemma rounds_ok nthrds : 1 <= nthrds -> forall l ls, Forall2 (answers nv nev) l ls -> forall k s ps Bs, inv k s ps Bs ->
  exists s', rounds nv nev nthrds leads mb k l s = Some s' /\ inv (k + length l) s' (ps ++ map fst (taken leads ls)) (Bs ++ map snd (taken leads ls)).
Proof.
  intros HT l ls H. induction H as [|[p rows] [p' ob] l ls [Hp Ha] H IH]; intros k s ps Bs I.
  - exists s. cbn [rounds taken map length]. rewrite !app_nil_r, Nat.add_0_r. auto.
  - cbn [fst snd] in Hp, Ha. subst p'. cbn [rounds length].
    set (s1 := if s_alloc s <=? k + 2 then gb_modpoly_realloc (16 * nthrds) 0 s else s).
    assert (I1 : s_np s1 = length Bs /\ length Bs <= S k /\ k + 2 < s_alloc s1 /\ pols_ok Bs (Lof (s_alloc s1)) (s_pols s1) /\ firstn (length Bs) (s_primes s1) = ps /\ length (s_primes s1) = s_alloc s1 /\ 3 <= s_alloc s1 /\ length ps = length Bs).
    { destruct I as (A & Q & B & C & C2 & D & E & F). unfold s1. destruct (Nat.leb_spec (s_alloc s) (k + 2)) as [X|X].
      - assert (Hb : length Bs < s_alloc s) by lia. pose proof (realloc_later (16 * nthrds) s Bs ltac:(lia) C2 Hb D) as P. unfold gb_modpoly_realloc. cbn [s_np s_alloc s_primes s_pols]. unfold gb_modpoly_realloc in P. cbn [s_pols] in P. split; [exact A|]. split; [exact B|]. split; [lia|]. split; [exact P|].
        rewrite firstn_app, app_length, repeat_length. replace (length Bs - length (s_primes s)) with 0 by lia. cbn [firstn]. rewrite app_nil_r. repeat (split; [first [assumption|lia]|]); exact Q.
      - repeat (split; [first [assumption|lia]|]); exact Q. }
    clearbody s1. clear I. destruct I1 as (A & B & C & D & E & F & G & Q).
    assert (I2 : inv (S k) s1 ps Bs) by (unfold inv; repeat (split; [first [assumption|lia]|]); auto).
    destruct rows as [rows|], ob as [Bk|]; try contradiction; unfold apply.
    + destruct Ha as [Hh Hr]. rewrite (compact_ok Bk rows Hh (reduced_nonempty _ _ Hr)). cbn [obind]. rewrite map_length. destruct (Nat.eqb_spec (length Bk) (length leads)) as [EL|NL]; cbn [negb].
      * rewrite (lms_kept Bk Hr). cbn [obind]. rewrite skip_lead. pose proof (same_lists (map lead Bk) leads ltac:(rewrite map_length; exact EL)) as SL. cbn [taken]. unfold same_leads.
        destruct (list_eq_dec (list_eq_dec N.eq_dec) (map lead Bk) leads) as [Eq|Ne].
        -- match goal with |- context [forallb ?g ?c] => replace (forallb g c) with true by (symmetry; exact (proj2 SL Eq)) end. unfold modpgbs_set. rewrite A. destruct (Nat.leb_spec (s_alloc s1 - 1) (length Bs)); [lia|].
           destruct (put_ok (s_primes s1) (length Bs) p) as (pr & P1 & P2 & _); [lia|]. rewrite P1. cbn [obind]. destruct (put_firstn _ _ _ _ P1) as [P3 _].
           destruct (set_ok Bs Bk [] (Lof (s_alloc s1)) (s_pols s1) D (conj Hr Eq)) as (np & S1 & S2). { intros i. unfold Lof. destruct (Nat.eqb_spec (s_alloc s1) 3); [|lia]. destruct (i <? junk); lia. }
           rewrite app_nil_r in S1. rewrite S1. cbn [obind fst].
           destruct (IH (S k) {| s_alloc := s_alloc s1; s_np := S (length Bs); s_primes := pr; s_pols := np |} (ps ++ [p]) (Bs ++ [Bk])) as (s' & T1 & T2).
           { unfold inv. cbn [s_np s_alloc s_pols s_primes]. rewrite !app_length. cbn [length]. rewrite Nat.add_1_r. split; [reflexivity|]. split; [lia|]. split; [lia|]. split; [lia|]. split; [lia|]. split; [exact S2|]. split; [rewrite P3, E; reflexivity|lia]. }
           exists s'. split; [exact T1|]. cbn [map fst snd]. rewrite <- !app_assoc in T2. cbn [app] in T2. replace (k + S (length l)) with (S k + length l) by lia. exact T2.
        -- match goal with |- context [forallb ?g ?c] => destruct (forallb g c) eqn:Ef end; [exfalso; apply Ne; apply SL; exact Ef|]. cbn [obind fst]. replace (k + S (length l)) with (S k + length l) by lia. apply IH. exact I2.
      * cbn [taken]. unfold same_leads. destruct (list_eq_dec (list_eq_dec N.eq_dec) (map lead Bk) leads) as [Eq|_]; [exfalso; apply NL; rewrite <- Eq; symmetry; apply map_length|]. cbn [obind fst]. replace (k + S (length l)) with (S k + length l) by lia. apply IH. exact I2.
    + cbn [obind fst taken]. replace (k + S (length l)) with (S k + length l) by lia. apply IH. exact I2.
Qed.
End Run.
