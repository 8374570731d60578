(** Symbolic preprocessing: it ends, and the matrix it builds is closed. *)
From Coq Require Import ZArith NArith Arith List Bool Lia Permutation Sorted.
From Verif Require Import LinSpec MonoSpec MonoModel MonoSpecProofs GbSpec GbProofs LaModel F4Model UpdProofs F4Rows.
Import ListNotations.
Open Scope Z_scope.

(** * The secondary hash table *)
Lemma mem_iff m l : mem m l = true <-> In m l.
Proof. unfold mem. rewrite existsb_exists. split; [intros (x & Hx & E); apply mono_eqb_iff in E; congruence|intros H; exists m; split; [exact H|apply mono_eqb_iff; reflexivity]]. Qed.
Lemma mem_false m l : mem m l = false <-> ~ In m l.
Proof. rewrite <- mem_iff. destruct (mem m l); split; congruence. Qed.
Lemma sht_add_in sht m x : In x (sht_add sht m) <-> In x sht \/ x = m.
Proof. unfold sht_add. destruct (mem m sht) eqn:E; [apply mem_iff in E; intuition congruence|]. rewrite in_app_iff. cbn. intuition congruence. Qed.
Lemma sht_row_in r : forall sht x, In x (sht_row sht r) <-> In x sht \/ exists t : Z * mono, In t r /\ snd t = x.
Proof.
  induction r as [|t r IH]; intros sht x; cbn [sht_row fold_left]; [split; [auto|intros [H|(t & [] & _)]; exact H]|]. change (fold_left _ r (sht_add sht (snd t))) with (sht_row (sht_add sht (snd t)) r). rewrite IH, sht_add_in. split.
  - intros [[H|H]|(s & Hs & E)]; [left; exact H|right; exists t; split; [left; reflexivity|congruence]|right; exists s; split; [right; exact Hs|exact E]].
  - intros [H|(s & [<-|Hs] & E)]; [left; left; exact H|left; right; congruence|right; exists s; auto].
Qed.
Lemma sht_rows_in rs : forall sht x, In x (sht_rows sht rs) <-> In x sht \/ exists r (t : Z * mono), In r rs /\ In t r /\ snd t = x.
Proof.
  induction rs as [|r rs IH]; intros sht x; cbn [sht_rows fold_left]; [split; [auto|intros [H|(r & t & [] & _)]; exact H]|]. change (fold_left sht_row rs (sht_row sht r)) with (sht_rows (sht_row sht r) rs). rewrite IH, sht_row_in. split.
  - intros [[H|(t & Ht & E)]|(s & t & Hs & Ht & E)]; [left; exact H|right; exists r, t; cbn; auto|right; exists s, t; cbn; auto].
  - intros [H|(s & t & [<-|Hs] & Ht & E)]; [left; left; exact H|left; right; exists t; auto|right; exists s, t; auto].
Qed.
Lemma sht_add_ext sht m : exists e, sht_add sht m = sht ++ e.
Proof. unfold sht_add. destruct (mem m sht); [exists []; rewrite app_nil_r; reflexivity|eexists; reflexivity]. Qed.
Lemma sht_row_ext r : forall sht, exists e, sht_row sht r = sht ++ e.
Proof.
  induction r as [|t r IH]; intros sht; cbn [sht_row fold_left]; [exists []; rewrite app_nil_r; reflexivity|]. destruct (sht_add_ext sht (snd t)) as (e1 & E1). destruct (IH (sht_add sht (snd t))) as (e2 & E2). unfold sht_row in E2. rewrite E2, E1, <- app_assoc. eexists. reflexivity.
Qed.
Lemma nd_snoc {A} (l : list A) x : NoDup l -> ~ In x l -> NoDup (l ++ [x]).
Proof. intros H N. apply (Permutation_NoDup (l := x :: l)); [apply Permutation_cons_append|constructor; assumption]. Qed.
Lemma sht_add_nd sht m : NoDup sht -> NoDup (sht_add sht m).
Proof. intros H. unfold sht_add. destruct (mem m sht) eqn:E; [exact H|]. apply nd_snoc; [exact H|]. apply mem_false. exact E. Qed.
Lemma sht_row_nd r : forall sht, NoDup sht -> NoDup (sht_row sht r).
Proof. induction r as [|t r IH]; intros sht H; cbn [sht_row fold_left]; [exact H|]. apply (IH (sht_add sht (snd t))). apply sht_add_nd. exact H. Qed.
Lemma sht_rows_nd rs : forall sht, NoDup sht -> NoDup (sht_rows sht rs).
Proof. induction rs as [|r rs IH]; intros sht H; cbn [sht_rows fold_left]; [exact H|]. apply (IH (sht_row sht r)). apply sht_row_nd. exact H. Qed.

Section Symb.
Variables (nv : nat) (lt : mono -> mono -> Prop) (p : Z).
Hypothesis MO : mono_order nv lt.
Hypothesis Hp : 1 < p.
Notation poly := (list (Z * mono)) (only parsing).
Notation els_ok := (els_ok nv lt p).
Notation mrow := (mrow nv).
Variables (els : list elt) (lmps : list nat).
Hypothesis HE : els_ok els.
Hypothesis HL : forall i, In i lmps -> (i < length els)%nat.

Definition divis (m : mono) : Prop := exists i g, In i lmps /\ nth_error els i = Some g /\ mdvd (e_lm g) m.
Lemma elm_len g : In g els -> length (e_lm g) = nv.
Proof. intros H. apply (mpoly_lm nv lt p). apply HE. exact H. Qed.
Lemma find_red_ok l m : (forall i, In i l -> In i lmps) -> length m = nv ->
  match find_red els l m with
  | Ok None => forall i g, In i l -> nth_error els i = Some g -> ~ mdvd (e_lm g) m
  | Ok (Some i) => In i l /\ exists g, nth_error els i = Some g /\ mdvd (e_lm g) m
  | _ => False end.
Proof.
  intros Hl Hm. induction l as [|i l IH]; cbn [find_red]; [intros i g []|].
  destruct (nth_error els i) as [g|] eqn:Eg; [|apply nth_error_None in Eg; specialize (HL i (Hl i (or_introl eq_refl))); lia]. cbn [of_opt rbind].
  assert (Lg : length (e_lm g) = nv) by (apply elm_len; eapply nth_error_In; eassumption).
  destruct (mdvdb (e_lm g) m) eqn:Ed.
  - split; [left; reflexivity|]. exists g. split; [exact Eg|]. apply mdvdb_iff; [congruence|exact Ed].
  - specialize (IH (fun j Hj => Hl j (or_intror Hj))). destruct (find_red els l m) as [[j|]| | |]; auto.
    + destruct IH as [H1 H2]. split; [right; exact H1|exact H2].
    + intros j h [<-|Hj] Eh; [|apply (IH j h Hj Eh)]. rewrite Eg in Eh. injection Eh as <-. intros K. apply mdvdb_iff in K; congruence.
Qed.

(** * A finite set of monomials closed under the rows that can be added *)
Definition closed (C : list mono) : Prop := forall m i g, In m C -> In i lmps -> nth_error els i = Some g -> mdvd (e_lm g) m ->
  forall t : Z * mono, In t (mulp (mquo m (e_lm g)) (e_pol g)) -> In (snd t) C.
Definition has_closure (m : mono) : Prop := exists C, In m C /\ closed C /\ forall x, In x C -> length x = nv.
Lemma closure_join l : (forall m, In m l -> has_closure m) -> exists C, (forall m, In m l -> In m C) /\ closed C /\ forall x, In x C -> length x = nv.
Proof.
  induction l as [|m l IH]; intros H; [exists []; split; [auto|]; split; [intros m i g []|intros x []]|].
  destruct (H m (or_introl eq_refl)) as (C1 & A1 & A2 & A3). destruct IH as (C2 & B1 & B2 & B3); [intros x Hx; apply H; right; exact Hx|].
  exists (C1 ++ C2). split; [intros x [<-|Hx]; apply in_or_app; auto|]. split.
  - intros x i g Hx Hi Hg Hd t Ht. apply in_or_app. apply in_app_or in Hx as [Hx|Hx]; [left; eapply A2; eassumption|right; eapply B2; eassumption].
  - intros x Hx. apply in_app_or in Hx as [Hx|Hx]; auto.
Qed.
Definition succs (m : mono) : list mono :=
  concat (map (fun i => match nth_error els i with Some g => if mdvdb (e_lm g) m then map snd (mulp (mquo m (e_lm g)) (e_pol g)) else [] | None => [] end) lmps).
Lemma closure_exists m : length m = nv -> has_closure m.
Proof.
  intros Hm. induction (mo_wf nv lt MO m Hm) as [m _ IH].
  assert (Row : forall i g, In i lmps -> nth_error els i = Some g -> mdvd (e_lm g) m -> mpoly nv lt p (mulp (mquo m (e_lm g)) (e_pol g)) /\ lmono (mulp (mquo m (e_lm g)) (e_pol g)) = m).
  { intros i g Hi Hg Hd. assert (Ig : In g els) by (eapply nth_error_In; eassumption). assert (Lg := elm_len g Ig). assert (Lq : length (mquo m (e_lm g)) = nv) by (rewrite mquo_length; lia). split; [apply mulp_mpoly; auto|].
    rewrite lmono_mulp by (destruct (HE g Ig) as ((K & _) & _); exact K). rewrite mmul_comm by (fold (e_lm g); congruence). apply (mul_quo nv); auto. }
  destruct (closure_join (filter (fun x => negb (mono_eqb x m)) (succs m))) as (C & C1 & C2 & C3).
  { intros x Hx. apply filter_In in Hx as [Hx Hn]. unfold succs in Hx. apply in_concat in Hx as (l & Hl & Hx). apply in_map_iff in Hl as (i & <- & Hi).
    destruct (nth_error els i) as [g|] eqn:Eg; [|destruct Hx]. destruct (mdvdb (e_lm g) m) eqn:Ed; [|destruct Hx]. apply in_map_iff in Hx as (t & <- & Ht).
    assert (Lg := elm_len g (nth_error_In _ _ Eg)). apply mdvdb_iff in Ed; [|congruence]. destruct (Row i g Hi Eg Ed) as [R1 R2]. destruct (mpoly_terms _ _ _ _ t R1 Ht) as [_ Lt]. destruct (mpoly_below _ _ _ _ t R1 Ht) as [E|L].
    - exfalso. rewrite R2 in E. rewrite E in Hn. assert (mono_eqb m m = true) by (apply mono_eqb_iff; reflexivity). rewrite H in Hn. discriminate.
    - rewrite R2 in L. apply IH; auto. }
  exists (m :: C). split; [left; reflexivity|]. split; [|intros x [<-|Hx]; auto].
  intros x i g [<-|Hx] Hi Hg Hd t Ht; [|right; eapply C2; eassumption]. destruct (mono_dec (snd t) m) as [E|N]; [left; congruence|]. right. apply C1. apply filter_In. split.
  - unfold succs. apply in_concat. eexists. split; [apply in_map; exact Hi|]. rewrite Hg. assert (Lg := elm_len g (nth_error_In _ _ Hg)). replace (mdvdb (e_lm g) m) with true by (symmetry; apply mdvdb_iff; [congruence|exact Hd]). apply in_map. exact Ht.
  - destruct (mono_eqb (snd t) m) eqn:E; [apply mono_eqb_iff in E; contradiction|reflexivity].
Qed.

(** * The worklist *)
Variables (skip : list mono) (oes : nat) (rr0 : list poly).
Record SI (i : nat) (sht leads : list mono) (rr : list poly) : Prop := {
  si_nd : NoDup sht;
  si_len : forall m, In m sht -> length m = nv;
  si_skip : forall m, In m skip -> exists j, (j < oes)%nat /\ nth_error sht j = Some m;
  si_lnd : NoDup leads;
  si_leads : forall m, In m leads -> exists j, nth_error sht j = Some m /\ ((j < i)%nat \/ (j < oes)%nat /\ In m skip);
  si_perm : Permutation (map lmono rr) leads;
  si_rows : forall r, In r rr -> mrow els r /\ forall t, In t r -> In (snd t) sht;
  si_new : exists rr1, rr = rr0 ++ rr1 /\ forall r, In r rr1 -> ~ In (lmono r) skip;
  si_done : forall j m, (j < i)%nat -> nth_error sht j = Some m -> In m leads \/ In m skip \/ ~ divis m }.
Definition symb_post (sht sht' leads leads' : list mono) (rr' : list poly) : Prop :=
  NoDup sht' /\ (forall m, In m sht' -> length m = nv) /\ (forall m, In m sht -> In m sht') /\ NoDup leads' /\ (forall m, In m leads -> In m leads') /\ (forall m, In m leads' -> In m sht') /\
  Permutation (map lmono rr') leads' /\ (forall r, In r rr' -> mrow els r /\ forall t, In t r -> In (snd t) sht') /\
  (exists rr1, rr' = rr0 ++ rr1 /\ forall r, In r rr1 -> ~ In (lmono r) skip) /\
  (forall m, In m sht' -> In m leads' \/ In m skip \/ ~ divis m).
Lemma symb_ok C : closed C -> forall fuel i sht leads rr, SI i sht leads rr -> (forall m, In m sht -> In m C) ->
  okn fuel (length C - i) (symb fuel els lmps skip oes i sht leads rr) (fun a => let '(sht', leads', rr') := a in symb_post sht sht' leads leads' rr').
Proof.
  intros HC. assert (Stop : forall fuel i sht leads rr, SI i sht leads rr -> nth_error sht i = None -> okn fuel (length C - i) (Ok (sht, leads, rr)) (fun a => let '(sht', leads', rr') := a in symb_post sht sht' leads leads' rr')).
  { intros fuel i sht leads rr [A1 A2 A3 A4 A5 A6 A7 A8 A9] E. cbn [okn]. apply nth_error_None in E. unfold symb_post. repeat (split; [auto; fail|]). split.
    { intros m Hm. destruct (A5 m Hm) as (j & Hj & _). eapply nth_error_In; eassumption. } repeat (split; [assumption|]).
    intros m Hm. apply In_nth_error in Hm as (j & Hj). apply (A9 j m); [|exact Hj]. assert (j < length sht)%nat by (apply nth_error_Some; congruence). lia. }
  induction fuel as [|fuel IH]; intros i sht leads rr HI HS; cbn [symb].
  - destruct (nth_error sht i) as [m|] eqn:Em; [|apply (Stop O); assumption]. cbn [okn]. assert (i < length sht)%nat by (apply nth_error_Some; congruence).
    pose proof (NoDup_incl_length (si_nd _ _ _ _ HI) HS). lia.
  - destruct (nth_error sht i) as [m|] eqn:Em; [|apply (Stop (S fuel)); assumption].
    assert (Step : forall sht' leads' rr', SI (S i) sht' leads' rr' -> (forall x, In x sht' -> In x C) -> (forall x, In x sht -> In x sht') -> (forall x, In x leads -> In x leads') ->
      okn (S fuel) (length C - i) (symb fuel els lmps skip oes (S i) sht' leads' rr') (fun a => let '(s, l, r) := a in symb_post sht s leads l r)).
    { intros sht' leads' rr' HI' HS' H1 H2. specialize (IH (S i) sht' leads' rr' HI' HS'). destruct (symb fuel els lmps skip oes (S i) sht' leads' rr') as [[[s l] r]| | |]; cbn [okn] in *; auto; [|lia].
      destruct IH as (B1 & B2 & B3 & B4 & B5 & B6 & B7 & B8 & B9 & B10). unfold symb_post. repeat (split; [auto; fail|]). auto. }
    pose proof HI as [A1 A2 A3 A4 A5 A6 A7 A8 A9].
    assert (Lm_ : length m = nv) by (apply A2; eapply nth_error_In; eassumption).
    destruct ((i <? oes)%nat && mem m skip) eqn:Esk.
    + apply andb_prop in Esk as [E1 E2]. apply Nat.ltb_lt in E1. apply mem_iff in E2. apply Step; auto. constructor; auto.
      * intros x Hx. destruct (A5 x Hx) as (j & Hj & [Hl|Hl]); exists j; (split; [exact Hj|]); [left; lia|right; exact Hl].
      * intros j x Hj Hx. destruct (Nat.eq_dec j i) as [->|]; [|apply (A9 j x); [lia|exact Hx]]. rewrite Em in Hx. injection Hx as <-. right. left. exact E2.
    + assert (Nsk : ~ In m skip).
      { intros K. destruct (A3 m K) as (j & Hj & Ej). assert (j = i) by (apply (proj1 (NoDup_nth_error sht) A1); [apply nth_error_Some; congruence|congruence]). subst j. apply Nat.ltb_lt in Hj. apply mem_iff in K. rewrite Hj, K in Esk. discriminate. }
      pose proof (find_red_ok lmps m (fun _ H => H) Lm_) as FR. destruct (find_red els lmps m) as [[g|]| | |]; try contradiction; cbn [rbind].
      * destruct FR as (Hg & e & Ee & Hd). pose proof (row_at_ok nv lt p els m g e HE Ee Lm_ Hd) as RA. destruct (row_at els m g) as [r| | |]; cbn [okl rbind] in RA |- *; try contradiction; [|exact I].
        destruct RA as (R1 & R2 & R3). apply Step.
        -- destruct (sht_row_ext r sht) as (ex & Eex).
           assert (Ex : forall j x, nth_error sht j = Some x -> nth_error (sht_row sht r) j = Some x) by (intros j x Hj; rewrite Eex, nth_error_app1; [exact Hj|apply nth_error_Some; congruence]).
           assert (Nl : ~ In m leads).
           { intros K. destruct (A5 m K) as (j & Hj & Hl). assert (j = i) by (apply (proj1 (NoDup_nth_error sht) A1); [apply nth_error_Some; congruence|congruence]). subst j. destruct Hl as [Hl|[_ Hl]]; [lia|contradiction]. }
           constructor.
           ++ apply sht_row_nd. exact A1.
           ++ intros x Hx. apply sht_row_in in Hx as [Hx|(t & Ht & <-)]; [auto|]. apply (mpoly_terms nv lt p r t); [|exact Ht]. eapply mrow_mpoly; eassumption.
           ++ intros x Hx. destruct (A3 x Hx) as (j & Hj & Ej). exists j. auto.
           ++ constructor; assumption.
           ++ intros x [<-|Hx]; [exists i; auto|]. destruct (A5 x Hx) as (j & Hj & Hl). exists j. split; [auto|]. destruct Hl as [Hl|Hl]; [left; lia|right; exact Hl].
           ++ rewrite map_app. cbn [map]. rewrite R2. rewrite <- A6. symmetry. apply Permutation_cons_append.
           ++ intros x Hx. apply in_app_or in Hx as [Hx|[<-|[]]].
              ** destruct (A7 x Hx) as [B1 B2]. split; [exact B1|]. intros t Ht. apply sht_row_in. left. auto.
              ** split; [exact R1|]. intros t Ht. apply sht_row_in. right. exists t. auto.
           ++ destruct A8 as (rr1 & -> & Hn). exists (rr1 ++ [r]). split; [rewrite app_assoc; reflexivity|]. intros x Hx. apply in_app_or in Hx as [Hx|[<-|[]]]; [auto|]. rewrite R2. exact Nsk.
           ++ intros j x Hj Hx. destruct (Nat.eq_dec j i) as [->|].
              ** rewrite (Ex _ _ Em) in Hx. injection Hx as <-. left. left. reflexivity.
              ** assert (Hj' : (j < i)%nat) by lia. assert (Hjs : (j < length sht)%nat) by (assert (i < length sht)%nat by (apply nth_error_Some; congruence); lia). rewrite Eex, nth_error_app1 in Hx by exact Hjs. destruct (A9 j x Hj' Hx) as [K|K]; [left; right; exact K|right; exact K].
        -- intros x Hx. apply sht_row_in in Hx as [Hx|(t & Ht & <-)]; [auto|]. rewrite R3 in Ht. eapply HC; [apply HS; eapply nth_error_In; exact Em|exact Hg|exact Ee|exact Hd|exact Ht].
        -- intros x Hx. apply sht_row_in. left. exact Hx.
        -- intros x Hx. right. exact Hx.
      * apply Step; auto. constructor; auto.
        -- intros x Hx. destruct (A5 x Hx) as (j & Hj & [Hl|Hl]); exists j; (split; [exact Hj|]); [left; lia|right; exact Hl].
        -- intros j x Hj Hx. destruct (Nat.eq_dec j i) as [->|]; [|apply (A9 j x); [lia|exact Hx]]. rewrite Em in Hx. injection Hx as <-. right. right. intros (k & g & Hk & Hg & Hd). apply (FR k g); assumption.
Qed.
(** More steps do not change a result. *)
Lemma symb_mono fuel : forall fuel' i sht leads rr, (fuel <= fuel')%nat -> symb fuel els lmps skip oes i sht leads rr <> More -> symb fuel' els lmps skip oes i sht leads rr = symb fuel els lmps skip oes i sht leads rr.
Proof.
  induction fuel as [|fuel IH]; intros fuel' i sht leads rr Hf Hn.
  - destruct fuel'; [reflexivity|]. cbn [symb] in *. destruct (nth_error sht i); [congruence|reflexivity].
  - destruct fuel' as [|fuel']; [lia|]. cbn [symb] in *. destruct (nth_error sht i) as [m|]; [|reflexivity]. destruct (_ && _); [apply IH; [lia|exact Hn]|].
    destruct (find_red els lmps m) as [[g|]| | |]; cbn [rbind] in *; try reflexivity; [|apply IH; [lia|exact Hn]]. destruct (row_at els m g); cbn [rbind] in *; try reflexivity. apply IH; [lia|exact Hn].
Qed.
End Symb.
