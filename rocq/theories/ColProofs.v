(** Proofs for the vectors of polynomials in a monomial basis. *)
From Coq Require Import ZArith Arith List Bool Lia.
From Verif Require Import ModInvModel ColSpec ColModel.
Import ListNotations.
Open Scope Z_scope.

(** * The order *)
Lemma drl_irrefl a : ~ drl_lt a a.
Proof. intros [H|(_ & i & H & _)]; lia. Qed.
Lemma drl_trans a b c : drl_lt a b -> drl_lt b c -> drl_lt a c.
Proof.
  intros [H|(E & i & Hi & Ei)] [H'|(E' & j & Hj & Ej)]; [left; lia|left; lia|left; lia|]. right. split; [lia|].
  destruct (lt_eq_lt_dec i j) as [[L|L]|L].
  - exists j. split; [rewrite (Ei j L); exact Hj|]. intros k Hk. rewrite (Ei k) by lia. apply Ej, Hk.
  - subst j. exists i. split; [lia|]. intros k Hk. rewrite (Ei k Hk). apply Ej, Hk.
  - exists i. split; [rewrite <- (Ej i L); exact Hi|]. intros k Hk. rewrite (Ei k Hk). apply Ej. lia.
Qed.
Lemma down_pos a : forall b, List.length a = List.length b -> down a b = 1 -> exists c x y a' b', a = c ++ x :: a' /\ b = c ++ y :: b' /\ x < y.
Proof.
  induction a as [|x a IH]; intros [|y b] L H; cbn in L; try discriminate. cbn [down] in H. destruct (Z.ltb_spec x y).
  - exists [], x, y, a, b. auto.
  - destruct (Z.ltb_spec y x); [discriminate|]. assert (x = y) by lia. subst y. injection L as L. destruct (IH b L H) as (c & u & v & a' & b' & -> & -> & Q). exists (x :: c), u, v, a', b'. auto.
Qed.
Lemma down_neg a : forall b, List.length a = List.length b -> down a b < 0 -> down b a = 1.
Proof.
  induction a as [|x a IH]; intros [|y b] L H; cbn in L; try discriminate. cbn [down] in *. injection L as L. destruct (Z.ltb_spec x y); [lia|]. destruct (Z.ltb_spec y x); [reflexivity|]. apply IH; assumption.
Qed.
Lemma down_zero a : forall b, List.length a = List.length b -> down a b = 0 -> a = b.
Proof.
  induction a as [|x a IH]; intros [|y b] L H; cbn in L; try discriminate; [reflexivity|]. cbn [down] in H. injection L as L. destruct (Z.ltb_spec x y); [discriminate|]. destruct (Z.ltb_spec y x); [discriminate|]. f_equal; [lia|apply IH; assumption].
Qed.
Lemma down_vals a : forall b, down a b = 1 \/ down a b = -1 \/ down a b = 0.
Proof. induction a as [|x a IH]; intros [|y b]; cbn [down]; auto. destruct (x <? y); auto. destruct (y <? x); auto. Qed.
Lemma down_drl a b : List.length a = List.length b -> deg a = deg b -> down (rev (skipn 2 a)) (rev (skipn 2 b)) = 1 -> drl_lt b a.
Proof.
  intros L D H. right. split; [auto|]. apply down_pos in H; [|rewrite !rev_length, !skipn_length; lia].
  destruct H as (c & x & y & a' & b' & Ea & Eb & Q).
  assert (Ka : skipn 2 a = rev a' ++ x :: rev c). { rewrite <- (rev_involutive (skipn 2 a)), Ea, rev_app_distr. cbn [rev]. rewrite <- app_assoc. reflexivity. }
  assert (Kb : skipn 2 b = rev b' ++ y :: rev c). { rewrite <- (rev_involutive (skipn 2 b)), Eb, rev_app_distr. cbn [rev]. rewrite <- app_assoc. reflexivity. }
  assert (La : List.length (rev a') = List.length (rev b')). { assert (E : List.length (skipn 2 a) = List.length (skipn 2 b)) by (rewrite !skipn_length; lia). rewrite Ka, Kb, !app_length in E. cbn in E. lia. }
  assert (N : forall (u : mono) i, nth (2 + i) u 0 = nth i (skipn 2 u) 0). { intros [|p [|q u]] i; cbn; destruct i; reflexivity. }
  exists (2 + List.length (rev a'))%nat. rewrite !N, Ka, Kb. split.
  - rewrite nth_middle. rewrite La, nth_middle. exact Q.
  - intros j Hj. replace j with (2 + (List.length (rev a') + S (j - 3 - List.length (rev a'))))%nat by lia. rewrite !N, Ka, Kb.
    rewrite (app_nth2 (rev a')) by lia. rewrite (app_nth2 (rev b')) by lia.
    replace (List.length (rev a') + S (j - 3 - List.length (rev a')) - List.length (rev b'))%nat with (S (j - 3 - List.length (rev a'))) by lia.
    replace (List.length (rev a') + S (j - 3 - List.length (rev a')) - List.length (rev a'))%nat with (S (j - 3 - List.length (rev a'))) by lia. reflexivity.
Qed.
Lemma larger_pos a b : List.length a = List.length b -> 0 < is_larger a b -> drl_lt b a.
Proof.
  intros L H. unfold is_larger in H. destruct (Z.ltb_spec (deg a) (deg b)); [lia|]. destruct (Z.ltb_spec (deg b) (deg a)); [left; assumption|].
  apply down_drl; [exact L|lia|]. destruct (down_vals (rev (skipn 2 a)) (rev (skipn 2 b))) as [E|[E|E]]; lia.
Qed.
Lemma larger_neg a b : List.length a = List.length b -> is_larger a b < 0 -> drl_lt a b.
Proof.
  intros L H. unfold is_larger in H. destruct (Z.ltb_spec (deg a) (deg b)); [left; assumption|]. destruct (Z.ltb_spec (deg b) (deg a)); [lia|].
  apply down_drl; [auto|lia|]. apply down_neg; [rewrite !rev_length, !skipn_length; lia|exact H].
Qed.
Lemma larger_zero a b : List.length a = List.length b -> is_larger a b = 0 -> deg a = deg b /\ skipn 2 a = skipn 2 b.
Proof.
  intros L H. unfold is_larger in H. destruct (Z.ltb_spec (deg a) (deg b)); [lia|]. destruct (Z.ltb_spec (deg b) (deg a)); [lia|]. split; [lia|].
  apply down_zero in H; [|rewrite !rev_length, !skipn_length; lia]. rewrite <- (rev_involutive (skipn 2 a)), H. apply rev_involutive.
Qed.

(** * The loops *)
Section Run.
Context (nv : nat).
Definition sized (l : list mono) : Prop := forall m, In m l -> List.length m = nv.
Lemma advance_ok bound rs : forall k m, rs <> [] -> List.length m = nv -> sized (monos rs) -> (forall j, bound = Z.of_nat j + k -> (j <= List.length rs - 2)%nat) -> bound < k + zlen rs ->
  exists pre rs', advance bound k rs m = Some (k + zlen pre, rs') /\ rs = pre ++ rs' /\ rs' <> [] /\ (forall t, In t pre -> drl_lt (fst t) m) /\
    match rs' with [] => False | t :: _ => 0 <= is_larger (fst t) m \/ bound <= k + zlen pre end /\ (pre = [] \/ k + zlen pre <= bound).
Proof.
  induction rs as [|t rs IH]; intros k m N Lm Sz Hb Hl; [congruence|]. cbn [advance]. destruct (Z.ltb_spec (is_larger (fst t) m) 0); cbn [andb].
  - destruct (Z.ltb_spec k bound).
    + assert (L2 : (2 < List.length (t :: rs))%nat). { specialize (Hb (Z.to_nat (bound - k)) ltac:(lia)). cbn [List.length] in Hb |- *. unfold zlen in Hl. cbn [List.length] in Hl. lia. }
      assert (N' : rs <> []) by (intros ->; cbn in L2; lia).
      destruct (IH (k + 1) m N' Lm) as (pre & rs' & E & Er & Nr & P & Q & W).
      * intros u Hu. apply Sz. right. exact Hu.
      * intros j Ej. specialize (Hb (S j) ltac:(lia)). cbn [List.length] in Hb, L2. lia.
      * unfold zlen in *. cbn [List.length] in Hl. lia.
      * exists (t :: pre), rs'. assert (Z1 : k + zlen (t :: pre) = k + 1 + zlen pre) by (unfold zlen; cbn [List.length]; lia). rewrite Z1. split; [exact E|]. split; [rewrite Er; reflexivity|]. split; [exact Nr|]. split; [|split; [exact Q|right; destruct W as [->|W]; [unfold zlen; cbn [List.length]; lia|exact W]]].
        intros u [<-|Hu]; [|apply P, Hu]. apply larger_neg; [|assumption]. rewrite Lm. apply Sz. left. reflexivity.
    + exists [], (t :: rs). cbn [zlen List.length]. unfold zlen. cbn [List.length]. rewrite Z.add_0_r. (repeat split); try (intros u []); auto; try discriminate; try (right; lia).
  - exists [], (t :: rs). unfold zlen. cbn [List.length]. rewrite Z.add_0_r. (repeat split); try (intros u []); auto; try discriminate; try (left; lia).
Qed.
Lemma asc_app l1 l2 : asc (l1 ++ l2) -> asc l2 /\ forall x y, In x l1 -> In y l2 -> drl_lt x y.
Proof.
  induction l1 as [|a l1 IH]; cbn [app asc]; [intros H; split; [exact H|intros x y []]|]. intros [H1 H2]. destruct (IH H2) as [A C]. split; [exact A|].
  intros x y [<-|Hx] Hy; [apply H1, in_or_app; auto|apply C; assumption].
Qed.
(** the end of the list of terms: the last but one is in the columns, or the last is not *)
Definition end_ok (rs : poly) (B : list mono) : Prop := forall pre t u, rs = pre ++ [t; u] -> In (fst t) B \/ ~ In (fst u) B.

Lemma columns_ok len B : asc B -> sized B -> forall k rs, zlen rs = len - k -> asc (monos rs) -> sized (monos rs) -> apart B (monos rs) -> end_ok rs B ->
  exists v, columns (len - 2) len k rs B = Some v /\ entries B rs v.
Proof.
  induction B as [|m B IH]; intros SB ZB k rs Lk SA ZA AP EO; [exists []; split; [reflexivity|constructor]|].
  destruct SB as [SB1 SB2]. assert (ZB' : sized B) by (intros x Hx; apply ZB; right; exact Hx). assert (Zm : List.length m = nv) by (apply ZB; left; reflexivity).
  cbn [columns]. destruct (Z.ltb_spec k len) as [Lt|Ge].
  - assert (N : rs <> []) by (intros ->; unfold zlen in Lk; cbn in Lk; lia).
    destruct (advance_ok (len - 2) rs k m N Zm ZA) as (pre & rs' & E & Er & Nr & P & Q & _).
    + intros j Ej. unfold zlen in Lk. lia.
    + lia.
    + rewrite E. destruct rs' as [|t rs2]; [congruence|].
      assert (SA' := SA). unfold monos in SA'. rewrite Er, map_app in SA'. apply asc_app in SA' as [SA2 SA3]. cbn [map asc] in SA2. destruct SA2 as [SA4 SA5].
      assert (Zt : List.length (fst t) = nv). { apply ZA. unfold monos. rewrite Er, map_app. apply in_or_app. right. left. reflexivity. }
      assert (Tin : In (fst t) (monos rs)). { unfold monos. rewrite Er, map_app. apply in_or_app. right. left. reflexivity. }
      (* entries of later columns may be looked up in what is left *)
      assert (Later : forall l1 l2 v, rs = l1 ++ l2 -> (forall u, In u l1 -> drl_lt (fst u) m \/ fst u = m) -> entries B l2 v -> entries B rs v).
      { intros l1 l2 v El Hl Hv. unfold entries in *. clear - El Hl Hv SB1. revert v Hv. induction B as [|b B IHB]; intros v Hv; inversion Hv as [|? c ? v' Hc Hv']; subst; constructor.
        - assert (Nb : ~ In b (monos l1)). { intros Hb. apply in_map_iff in Hb as (u & <- & Hu). assert (Q : drl_lt m (fst u)) by (apply SB1; left; reflexivity). destruct (Hl u Hu) as [H|H]; [apply (drl_irrefl m); eapply drl_trans; eassumption|rewrite H in Q; exact (drl_irrefl _ Q)]. }
          destruct Hc as [Hc|[Hc ->]]; [left; apply in_or_app; right; exact Hc|right; split; [|reflexivity]]. unfold monos. rewrite map_app. intros H. apply in_app_iff in H as [H|H]; contradiction.
        - apply IHB; [intros x Hx; apply SB1; right; exact Hx|exact Hv']. }
      assert (Sub : forall l1 l2, rs = l1 ++ l2 -> asc (monos l2) /\ sized (monos l2) /\ apart B (monos l2)).
      { intros l1 l2 El. assert (I2 : forall x, In x (monos l2) -> In x (monos rs)). { intros x Hx. unfold monos. rewrite El, map_app. apply in_or_app. right. exact Hx. }
        split; [unfold monos in SA |- *; rewrite El, map_app in SA; apply asc_app in SA as [A _]; exact A|]. split; [intros x Hx; apply ZA, I2, Hx|]. intros a b Ha Hb. apply AP; [right; exact Ha|apply I2, Hb]. }
      destruct (Z.eqb_spec (is_larger (fst t) m) 0) as [E0|E0].
      * apply larger_zero in E0 as [D0 K0]; [|lia]. assert (Em : m = fst t) by (apply AP; [left; reflexivity|exact Tin|lia|symmetry; exact K0]).
        assert (El : rs = (pre ++ [t]) ++ rs2) by (rewrite Er, <- app_assoc; reflexivity). destruct (Sub _ _ El) as (S1 & S2 & S3).
        destruct (IH SB2 ZB' (k + zlen pre + 1) rs2) as (v & Ev & Hv); auto.
        { rewrite Er in Lk. unfold zlen in *. rewrite app_length in Lk. cbn [List.length] in Lk. lia. }
        { intros p a b Hp. destruct (EO ((pre ++ [t]) ++ p) a b) as [H|H]; [rewrite El, Hp, app_assoc; reflexivity| |right; intros Hb; apply H; right; exact Hb].
          destruct H as [H|H]; [|left; exact H]. exfalso. assert (Q2 : drl_lt (fst t) (fst a)). { apply SA4. rewrite Hp. rewrite map_app. apply in_or_app. right. left. reflexivity. } rewrite <- H, <- Em in Q2. exact (drl_irrefl _ Q2). }
        exists (snd t :: v). rewrite Ev. split; [reflexivity|]. constructor.
        { left. rewrite Er, Em. apply in_or_app. right. left. destruct t; reflexivity. }
        apply (Later (pre ++ [t]) rs2 v El); [|exact Hv]. intros u Hu. apply in_app_iff in Hu as [Hu|[<-|[]]]; [left; apply P, Hu|right; symmetry; exact Em].
      * destruct (Sub _ _ Er) as (S1 & S2 & S3).
        assert (EOr : forall p a b, t :: rs2 = p ++ [a; b] -> In (fst a) (m :: B) \/ ~ In (fst b) (m :: B)). { intros p a b Hp. apply (EO (pre ++ p) a b). rewrite Er, Hp, app_assoc. reflexivity. }
        (* the column is not among the terms *)
        assert (NI : ~ In m (monos (t :: rs2)) /\ end_ok (t :: rs2) B).
        { destruct (Z.lt_ge_cases 0 (is_larger (fst t) m)) as [Gt|Le].
          - apply larger_pos in Gt; [|lia]. assert (All : forall x, In x (monos (t :: rs2)) -> drl_lt m x). { intros x [<-|Hx]; [exact Gt|]. eapply drl_trans; [exact Gt|apply SA4, Hx]. }
            split; [intros H; exact (drl_irrefl _ (All m H))|]. intros p a b Hp. destruct (EOr p a b Hp) as [[H|H]|H]; [|left; exact H|right; intros Hb; apply H; right; exact Hb].
            exfalso. assert (Q2 : drl_lt m (fst a)). { apply All. rewrite Hp. unfold monos. rewrite map_app. apply in_or_app. right. left. reflexivity. } rewrite <- H in Q2. exact (drl_irrefl _ Q2).
          - assert (Lt2 : is_larger (fst t) m < 0) by lia. apply larger_neg in Lt2; [|lia]. destruct Q as [Q|Q]; [lia|].
            assert (L3 : (List.length rs2 <= 1)%nat). { rewrite Er in Lk. unfold zlen in *. rewrite app_length in Lk. cbn [List.length] in Lk. lia. }
            assert (Nt : fst t <> m) by (intros H; rewrite H in Lt2; exact (drl_irrefl _ Lt2)).
            destruct rs2 as [|u [|w rs2]]; [| |cbn in L3; lia].
            + split; [intros [H|[]]; contradiction|]. intros p a b Hp. destruct p as [|x [|y p]]; cbn in Hp; discriminate.
            + assert (NB : ~ In (fst t) B). { intros H. apply (drl_irrefl m). eapply drl_trans; [apply SB1, H|exact Lt2]. }
              destruct (EOr [] t u eq_refl) as [[H|H]|H]; [congruence|contradiction|]. split.
              * intros [H'|[H'|[]]]; [contradiction|]. apply H. left. symmetry. exact H'.
              * intros p a b Hp. destruct p as [|x [|y [|z p]]]; cbn [app] in Hp; try discriminate. injection Hp as -> ->. right. intros Hb. apply H. right. exact Hb. }
        destruct NI as [NI EO2]. destruct (IH SB2 ZB' (k + zlen pre) (t :: rs2)) as (v & Ev & Hv); auto.
        { rewrite Er in Lk. unfold zlen in *. rewrite app_length in Lk. lia. }
        exists (0 :: v). rewrite Ev. split; [reflexivity|]. constructor.
        { right. split; [|reflexivity]. unfold monos. rewrite Er, map_app. intros H. apply in_app_iff in H as [H|H]; [|exact (NI H)]. apply in_map_iff in H as (u & Eu & Hu). pose proof (P u Hu) as Q2. rewrite Eu in Q2. exact (drl_irrefl _ Q2). }
        apply (Later pre (t :: rs2) v Er); [|exact Hv]. intros u Hu. left. apply P, Hu.
  - assert (rs = []) by (destruct rs; [reflexivity|unfold zlen in Lk; cbn [List.length] in Lk; lia]). subst rs.
    destruct (IH SB2 ZB' k [] Lk) as (v & Ev & Hv); [exact Logic.I|intros x []|intros x y _ []|intros p a b Hp; destruct p as [|x [|y p]]; discriminate|].
    exists (0 :: v). rewrite Ev. split; [reflexivity|]. constructor; [right; split; [intros []|reflexivity]|exact Hv].
Qed.
(** terms that are smaller than all columns are never copied *)
Lemma columns_none len B : sized B -> forall k rs, zlen rs = len - k -> sized (monos rs) -> apart B (monos rs) -> (forall t m, In t rs -> In m B -> drl_lt (fst t) m) ->
  columns (len - 2) len k rs B = Some (repeat 0 (List.length B)).
Proof.
  induction B as [|m B IH]; intros ZB k rs Lk ZA AP H; [reflexivity|]. assert (ZB' : sized B) by (intros x Hx; apply ZB; right; exact Hx). assert (Zm : List.length m = nv) by (apply ZB; left; reflexivity).
  cbn [columns List.length repeat]. destruct (Z.ltb_spec k len) as [Lt|Ge].
  - assert (N : rs <> []) by (intros ->; unfold zlen in Lk; cbn in Lk; lia).
    destruct (advance_ok (len - 2) rs k m N Zm ZA) as (pre & rs' & E & Er & Nr & P & _); [intros j Ej; unfold zlen in Lk; lia|lia|]. rewrite E. destruct rs' as [|t rs2]; [congruence|].
    assert (Tin : In t rs) by (rewrite Er; apply in_or_app; right; left; reflexivity). assert (Tm : In (fst t) (monos rs)) by (apply in_map; exact Tin).
    destruct (Z.eqb_spec (is_larger (fst t) m) 0) as [E0|E0].
    + exfalso. apply larger_zero in E0 as [D0 K0]; [|rewrite (ZA _ Tm), Zm; reflexivity]. assert (Em : m = fst t) by (apply AP; [left; reflexivity|exact Tm|lia|symmetry; exact K0]).
      pose proof (H t m Tin (or_introl eq_refl)) as Q. rewrite <- Em in Q. exact (drl_irrefl _ Q).
    + rewrite IH; [reflexivity|exact ZB'| | | |].
      * rewrite Er in Lk. unfold zlen in *. rewrite app_length in Lk. lia.
      * intros x Hx. apply ZA. unfold monos. rewrite Er, map_app. apply in_or_app. right. exact Hx.
      * intros a b Ha Hb. apply AP; [right; exact Ha|]. unfold monos. rewrite Er, map_app. apply in_or_app. right. exact Hb.
      * intros u x Hu Hx. apply H; [rewrite Er; apply in_or_app; right; exact Hu|right; exact Hx].
  - assert (rs = []) by (destruct rs; [reflexivity|unfold zlen in Lk; cbn [List.length] in Lk; lia]). subst rs.
    rewrite IH; [reflexivity|exact ZB'|exact Lk|intros x []|intros a b _ []|intros t x []].
Qed.
(** terms behind a last one that is in no column: smaller ones, or a single one, which is not reached *)
Definition junk_ok (lm : mono) (junk : poly) : Prop := (forall j, In j junk -> drl_lt (fst j) lm) \/ List.length junk = 1%nat.
Lemma columns_own len B lm junk : asc B -> sized B -> ~ In (fst lm) B -> junk_ok (fst lm) junk -> forall k own, zlen (own ++ lm :: junk) = len - k -> asc (monos (own ++ [lm])) ->
  sized (monos (own ++ lm :: junk)) -> apart B (monos (own ++ lm :: junk)) -> exists v, columns (len - 2) len k (own ++ lm :: junk) B = Some v /\ entries B (own ++ [lm]) v.
Proof.
  induction B as [|m B IH]; intros SB ZB NL JK k own Lk SA ZA AP; [exists []; split; [reflexivity|constructor]|].
  destruct SB as [SB1 SB2]. assert (ZB' : sized B) by (intros x Hx; apply ZB; right; exact Hx). assert (Zm : List.length m = nv) by (apply ZB; left; reflexivity).
  assert (NL' : ~ In (fst lm) B) by (intros H; apply NL; right; exact H). assert (NLm : fst lm <> m) by (intros H; apply NL; left; symmetry; exact H).
  set (rs := own ++ lm :: junk) in *. cbn [columns].
  assert (N : rs <> []) by (unfold rs; destruct own; discriminate).
  destruct (Z.ltb_spec k len) as [Lt|Ge]; [|unfold rs, zlen in Lk; rewrite app_length in Lk; cbn [List.length] in Lk; lia].
  destruct (advance_ok (len - 2) rs k m N Zm ZA) as (pre & rs' & E & Er & Nr & P & Q & W); [intros j Ej; unfold zlen in Lk; lia|lia|]. rewrite E. destruct rs' as [|t rs2]; [congruence|].
  assert (Tin : In t rs) by (rewrite Er; apply in_or_app; right; left; reflexivity). assert (Tm : In (fst t) (monos rs)) by (apply in_map; exact Tin).
  assert (Zt : List.length (fst t) = nv) by (apply ZA, Tm).
  assert (Later : forall l1 l2 v, own ++ [lm] = l1 ++ l2 -> (forall u, In u l1 -> drl_lt (fst u) m \/ fst u = m) -> entries B l2 v -> entries B (own ++ [lm]) v).
  { intros l1 l2 v El Hl Hv. rewrite El. unfold entries in *. clear - Hl Hv SB1. revert v Hv. induction B as [|b B IHB]; intros v Hv; inversion Hv as [|? c ? v' Hc Hv']; subst; constructor.
    - assert (Nb : ~ In b (monos l1)). { intros Hb. apply in_map_iff in Hb as (u & <- & Hu). assert (Q : drl_lt m (fst u)) by (apply SB1; left; reflexivity). destruct (Hl u Hu) as [H|H]; [apply (drl_irrefl m); eapply drl_trans; eassumption|rewrite H in Q; exact (drl_irrefl _ Q)]. }
      destruct Hc as [Hc|[Hc ->]]; [left; apply in_or_app; right; exact Hc|right; split; [|reflexivity]]. unfold monos. rewrite map_app. intros H. apply in_app_iff in H as [H|H]; contradiction.
    - apply IHB; [intros x Hx; apply SB1; right; exact Hx|exact Hv']. }
  assert (Sub : forall l1 l2, rs = l1 ++ l2 -> sized (monos l2) /\ apart B (monos l2)).
  { intros l1 l2 El. assert (I2 : forall x, In x (monos l2) -> In x (monos rs)). { intros x Hx. unfold monos. rewrite El, map_app. apply in_or_app. right. exact Hx. }
    split; [intros x Hx; apply ZA, I2, Hx|]. intros a b Ha Hb. apply AP; [right; exact Ha|apply I2, Hb]. }
  assert (Em0 : is_larger (fst t) m = 0 -> m = fst t). { intros E0. apply larger_zero in E0 as [D0 K0]; [|lia]. apply AP; [left; reflexivity|exact Tm|lia|symmetry; exact K0]. }
  assert (CS : (exists own2, own = pre ++ own2 /\ t :: rs2 = own2 ++ lm :: junk) \/ exists j1, pre = (own ++ [lm]) ++ j1 /\ junk = j1 ++ t :: rs2).
  { unfold rs in Er. clear - Er. revert pre Er. induction own as [|o own IHo]; intros pre Er.
    - destruct pre as [|x pre]; [left; exists []; auto|]. cbn [app] in Er. injection Er as <- Er. right. exists pre. auto.
    - destruct pre as [|x pre]; [left; exists (o :: own); auto|]. cbn [app] in Er. injection Er as <- Er. destruct (IHo pre Er) as [(own2 & -> & E2)|(j1 & -> & E2)]; [left; exists own2; auto|right; exists j1; auto]. }
  destruct CS as [(own2 & Eo & Et)|(j1 & Ep & Ej)].
  - assert (El : own ++ [lm] = pre ++ own2 ++ [lm]) by (rewrite Eo, <- app_assoc; reflexivity).
    assert (SA2 : asc (monos (own2 ++ [lm])) /\ True). { unfold monos in SA |- *. rewrite El, map_app in SA. apply asc_app in SA as [A _]. auto. } destruct SA2 as [SA2 _].
    assert (Pre : forall u, In u pre -> drl_lt (fst u) m \/ fst u = m) by (intros u Hu; left; apply P, Hu).
    destruct (Z.eqb_spec (is_larger (fst t) m) 0) as [E0|E0].
    + pose proof (Em0 E0) as Em. destruct own2 as [|o own3]; cbn [app] in Et; injection Et as <- Et; [congruence|].
      rewrite Et. destruct (Sub (pre ++ [t]) (own3 ++ lm :: junk)) as [S1 S2]; [rewrite Er, Et, <- app_assoc; reflexivity|].
      destruct (IH SB2 ZB' NL' JK (k + zlen pre + 1) own3) as (v & Ev & Hv); auto.
      { rewrite Er, Et in Lk. unfold zlen in *. rewrite app_length in Lk. cbn [List.length] in Lk. lia. }
      { cbn [app monos map asc] in SA2. apply SA2. }
      exists (snd t :: v). rewrite Ev. split; [reflexivity|]. constructor.
      { left. rewrite El, Em. apply in_or_app. right. left. destruct t; reflexivity. }
      apply (Later (pre ++ [t]) (own3 ++ [lm]) v); [rewrite El, <- app_assoc; reflexivity| |exact Hv]. intros u Hu. apply in_app_iff in Hu as [Hu|[<-|[]]]; [apply Pre, Hu|right; symmetry; exact Em].
    + destruct (Sub pre (t :: rs2) Er) as [S1 S2]. rewrite Et in S1, S2.
      destruct (IH SB2 ZB' NL' JK (k + zlen pre) own2) as (v & Ev & Hv); auto.
      { rewrite <- Et. rewrite Er in Lk. unfold zlen in *. rewrite app_length in Lk. lia. }
      exists (0 :: v). rewrite Et, Ev. split; [reflexivity|]. constructor; [|apply (Later pre (own2 ++ [lm]) v El Pre Hv)].
      right. split; [|reflexivity]. unfold monos. rewrite El, map_app. intros H. apply in_app_iff in H as [H|H].
      { apply in_map_iff in H as (u & Eu & Hu). pose proof (P u Hu) as Q2. rewrite Eu in Q2. exact (drl_irrefl _ Q2). }
      destruct (Z.lt_ge_cases 0 (is_larger (fst t) m)) as [Gt|Le].
      * apply larger_pos in Gt; [|lia]. assert (Q2 : drl_lt m m); [|exact (drl_irrefl _ Q2)]. destruct own2 as [|o own3]; cbn [app] in Et; injection Et as <- Et; cbn [app map] in H; destruct H as [H|H]; try congruence; try (rewrite H in Gt; exact Gt); [destruct H|].
        cbn [app monos map asc] in SA2. eapply drl_trans; [exact Gt|apply SA2; exact H].
      * assert (Lt2 : is_larger (fst t) m < 0) by lia. apply larger_neg in Lt2; [|lia]. destruct Q as [Q|Q]; [lia|].
        assert (L3 : (List.length (own2 ++ lm :: junk) <= 2)%nat). { rewrite <- Et. rewrite Er in Lk. unfold zlen in *. rewrite app_length in Lk. lia. }
        rewrite app_length in L3. cbn [List.length] in L3. destruct own2 as [|o [|o' own3]]; [|cbn [app] in Et; injection Et as <- Et|cbn in L3; lia].
        { destruct H as [H|[]]. exact (NLm H). }
        { destruct H as [H|[H|[]]]; [|exact (NLm H)]. rewrite H in Lt2. exact (drl_irrefl _ Lt2). }
  - assert (Own : forall u, In u (own ++ [lm]) -> drl_lt (fst u) m) by (intros u Hu; apply P; rewrite Ep; apply in_or_app; left; exact Hu).
    assert (LM : drl_lt (fst lm) m) by (apply Own, in_or_app; right; left; reflexivity).
    destruct JK as [JK|JK].
    + assert (Hj : forall u, In u (t :: rs2) -> drl_lt (fst u) m). { intros u Hu. eapply drl_trans; [apply JK; rewrite Ej; apply in_or_app; right; exact Hu|exact LM]. }
      destruct (Z.eqb_spec (is_larger (fst t) m) 0) as [E0|E0]; [exfalso; pose proof (Em0 E0) as Em; pose proof (Hj t (or_introl eq_refl)) as Q2; rewrite <- Em in Q2; exact (drl_irrefl _ Q2)|].
      destruct (Sub pre (t :: rs2) Er) as [S1 S2]. rewrite (columns_none len B ZB' (k + zlen pre) (t :: rs2)); auto.
      * exists (0 :: repeat 0 (List.length B)). split; [reflexivity|].
        assert (K : forall C, (forall x, In x C -> x = m \/ In x B) -> entries C (own ++ [lm]) (repeat 0 (List.length C))); [|apply (K (m :: B)); intros x [<-|Hx]; auto].
        intros C. induction C as [|c C IHC]; intros HC; [constructor|]. cbn [List.length repeat]. constructor; [|apply IHC; intros x Hx; apply HC; right; exact Hx].
        right. split; [|reflexivity]. intros H. apply in_map_iff in H as (u & Eu & Hu). pose proof (Own u Hu) as Q2. rewrite Eu in Q2. destruct (HC c (or_introl eq_refl)) as [->|Hc]; [exact (drl_irrefl _ Q2)|].
        apply (drl_irrefl c). eapply drl_trans; [exact Q2|apply SB1, Hc].
      * rewrite Er in Lk. unfold zlen in *. rewrite app_length in Lk. lia.
      * intros u x Hu Hx. eapply drl_trans; [apply Hj, Hu|apply SB1, Hx].
    + exfalso. destruct W as [->|W]; [destruct own; discriminate Ep|]. unfold rs in Lk. rewrite Ep in W. unfold zlen in *. rewrite !app_length in W. rewrite app_length in Lk. cbn [List.length] in *. lia.
Qed.
End Run.
