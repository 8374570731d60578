(** Proofs about OutModel. *)
From Coq Require Import String ZArith NArith Arith List Bool Ascii Lia.
From Verif Require Import ModInvModel ParseSpec FglmModel PrintModel PrintSpec PrintProofs InputModel BoxModel OutSpec OutModel.
Import ListNotations.
Local Open Scope string_scope.
Local Open Scope list_scope.
Open Scope Z_scope.

(** ** The text determines the value *)
Definition stop (c : ascii) : bool := existsb (Ascii.eqb c) [","; "]"; ":"]%char.
Definition stops (r : str) : Prop := match r with [] => True | c :: _ => stop c = true end.
Lemma cut (P : ascii -> bool) a b r r' : forallb P a = true -> forallb P b = true -> (match r with [] => True | c :: _ => P c = false end) -> (match r' with [] => True | c :: _ => P c = false end) ->
  a ++ r = b ++ r' -> a = b /\ r = r'.
Proof.
  revert b. induction a as [|x a IH]; intros [|y b] Ha Hb Hr Hr' E; cbn [app forallb] in *.
  - auto.
  - subst r. apply andb_true_iff in Hb as [Hb _]. congruence.
  - subst r'. apply andb_true_iff in Ha as [Ha _]. congruence.
  - injection E as -> E. apply andb_true_iff in Ha as [_ Ha]. apply andb_true_iff in Hb as [_ Hb]. destruct (IH b Ha Hb Hr Hr' E) as [-> ->]. auto.
Qed.
Definition nodigit (r : str) : Prop := match r with [] => True | c :: _ => is_digit c = false end.
Lemma stop_nodigit r : stops r -> nodigit r.
Proof. destruct r as [|c r]; [trivial|]. unfold stops, nodigit, stop. cbn [existsb]. rewrite !orb_true_iff, !Ascii.eqb_eq. intros [->|[->|[->|H]]]; [reflexivity|reflexivity|reflexivity|discriminate]. Qed.
Lemma num_cut a b r r' : number a -> number b -> nodigit r -> nodigit r' -> a ++ r = b ++ r' -> a = b /\ r = r'.
Proof. intros [_ A] [_ B]. apply (cut is_digit); assumption. Qed.
Lemma int_cut n n' s s' r r' : int_text n s -> int_text n' s' -> nodigit r -> nodigit r' -> s ++ r = s' ++ r' -> n = n' /\ s = s' /\ r = r'.
Proof.
  intros [[A1 A2]|(d & -> & A1 & A2)] [[B1 B2]|(d' & -> & B1 & B2)] Hr Hr' E.
  - destruct (num_cut _ _ _ _ A1 B1 Hr Hr' E) as [-> ->]. subst. auto.
  - exfalso. destruct A1 as [A0 A1]. destruct s as [|c s]; [contradiction|]. injection E as -> _. discriminate.
  - exfalso. destruct B1 as [B0 B1]. destruct s' as [|c s']; [contradiction|]. injection E as <- _. discriminate.
  - injection E as E. destruct (num_cut _ _ _ _ A1 B1 Hr Hr' E) as [-> ->]. subst. auto.
Qed.
Lemma int_head n s : int_text n s -> exists c r, s = c :: r /\ (is_digit c = true \/ c = "-"%char).
Proof.
  intros [[[A0 A1] _]|(d & -> & _)]; [|eauto]. destruct s as [|c s]; [contradiction|]. apply andb_true_iff in A1 as [A1 _]. eauto.
Qed.
(** the first character of a value *)
Lemma spells_head t s : spells t s -> exists c r, s = c :: r /\ c <> "]"%char /\ match t with Val _ _ => is_digit c = true \/ c = "-"%char | Name _ => c = quote | Lst _ => c = "["%char end.
Proof.
  assert (K : forall c, is_digit c = true \/ c = "-"%char -> c <> "]"%char) by (intros c [H|H] ->; discriminate).
  intros [n s' H|n s' d H Hd|n s' d e H Hd He|x H|ts ss H].
  - destruct (int_head _ _ H) as (c & r & -> & D). exists c, r. auto.
  - destruct (int_head _ _ H) as (c & r & -> & D). exists c. eexists. split; [reflexivity|]. auto.
  - destruct (int_head _ _ H) as (c & r & -> & D). exists c. eexists. split; [reflexivity|]. auto.
  - exists quote. eexists. split; [reflexivity|]. split; [discriminate|reflexivity].
  - exists "["%char. eexists. split; [reflexivity|]. split; [discriminate|reflexivity].
Qed.
(** the three forms of a number *)
Lemma val_form n d s : spells (Val n d) s -> exists i tl, int_text n i /\ s = i ++ tl /\
  ((tl = [] /\ d = 1) \/ (exists a, tl = "/"%char :: a /\ number a /\ d = dval a) \/ (exists a e, tl = "/"%char :: a ++ "^"%char :: e /\ number a /\ number e /\ d = dval a ^ dval e)).
Proof.
  intros H. inversion H; subst; clear H.
  - exists s, []. rewrite app_nil_r. auto.
  - exists s0. eexists. split; [eassumption|]. split; [reflexivity|]. right. left. eauto.
  - exists s0. eexists. split; [eassumption|]. split; [reflexivity|]. right. right. eauto 8.
Qed.
Lemma val_cut n d n' d' s s' r r' : spells (Val n d) s -> spells (Val n' d') s' -> stops r -> stops r' -> s ++ r = s' ++ r' -> Val n d = Val n' d' /\ r = r'.
Proof.
  intros A B Hr Hr' E. destruct (val_form _ _ _ A) as (i & tl & I & -> & T). destruct (val_form _ _ _ B) as (i' & tl' & I' & -> & T'). clear A B. rewrite <- !app_assoc in E.
  assert (N : forall tl d r, stops r -> ((tl = [] /\ d = 1) \/ (exists a, tl = "/"%char :: a /\ number a /\ d = dval a) \/ (exists a e, tl = "/"%char :: a ++ "^"%char :: e /\ number a /\ number e /\ d = dval a ^ dval e)) -> nodigit (tl ++ r)).
  { intros t d0 r0 H0 [[-> _]|[(a & -> & _)|(a & e & -> & _)]]; [apply stop_nodigit; exact H0|reflexivity|reflexivity]. }
  destruct (int_cut _ _ _ _ _ _ I I' (N _ _ _ Hr T) (N _ _ _ Hr' T') E) as (-> & _ & E'). clear N E I I' i i'.
  assert (C : forall x, nodigit ("^"%char :: x)) by (intros x; reflexivity).
  assert (X : forall r a x, stops r -> r = "/"%char :: a ++ x -> False) by (intros r0 a x H0 ->; discriminate).
  destruct T as [[-> ->]|[(a & -> & N1 & ->)|(a & e & -> & N1 & N2 & ->)]], T' as [[-> ->]|[(a' & -> & N1' & ->)|(a' & e' & -> & N1' & N2' & ->)]]; cbn [app] in E'.
  - subst. auto.
  - exfalso. subst r. exact (X _ _ _ Hr eq_refl).
  - exfalso. subst r. discriminate.
  - exfalso. subst r'. exact (X _ _ _ Hr' eq_refl).
  - injection E' as E'. destruct (num_cut _ _ _ _ N1 N1' (stop_nodigit _ Hr) (stop_nodigit _ Hr') E') as [-> ->]. auto.
  - injection E' as E'. rewrite <- app_assoc in E'. destruct (num_cut _ _ _ _ N1 N1' (stop_nodigit _ Hr) (C _) E') as [_ ->]. discriminate.
  - exfalso. subst r'. discriminate.
  - injection E' as E'. rewrite <- app_assoc in E'. destruct (num_cut _ _ _ _ N1 N1' (C _) (stop_nodigit _ Hr') E') as [_ <-]. discriminate.
  - injection E' as E'. rewrite <- !app_assoc in E'. destruct (num_cut _ _ _ _ N1 N1' (C _) (C _) E') as [-> E2]. cbn [app] in E2. injection E2 as E2.
    destruct (num_cut _ _ _ _ N2 N2' (stop_nodigit _ Hr) (stop_nodigit _ Hr') E2) as [-> ->]. auto.
Qed.
Lemma quote_cut x x' r r' : ~ In quote x -> ~ In quote x' -> x ++ quote :: r = x' ++ quote :: r' -> x = x' /\ r = r'.
Proof.
  intros A B E. assert (K : forall y, ~ In quote y -> forallb (fun c => negb (Ascii.eqb c quote)) y = true).
  { intros y H. apply forallb_forall. intros c Hc. apply negb_true_iff, Ascii.eqb_neq. intros ->. auto. }
  destruct (cut (fun c => negb (Ascii.eqb c quote)) x x' (quote :: r) (quote :: r')) as [-> F]; auto. injection F as ->. auto.
Qed.
Lemma spells_cut m : forall t t' s s' r r', (List.length s <= m)%nat -> spells t s -> spells t' s' -> stops r -> stops r' -> s ++ r = s' ++ r' -> t = t' /\ r = r'.
Proof.
  induction m as [|m IH]; intros t t' s s' r r' Hm A B Hr Hr' E.
  { destruct (spells_head _ _ A) as (c & x & -> & _). cbn in Hm. lia. }
  destruct (spells_head _ _ A) as (c & x & Es & _ & Hc). destruct (spells_head _ _ B) as (c' & x' & Es' & _ & Hc').
  assert (c = c') by (rewrite Es, Es' in E; injection E as E _; exact E). subst c'.
  destruct t as [n d|y|ts], t' as [n' d'|y'|ts'].
  - exact (val_cut _ _ _ _ _ _ _ _ A B Hr Hr' E).
  - exfalso. subst c. destruct Hc; discriminate.
  - exfalso. subst c. destruct Hc; discriminate.
  - exfalso. subst c. destruct Hc'; discriminate.
  - clear Hc Hc' Es Es' IH. inversion A as [| | |? Ny|]; inversion B as [| | |? Ny'|]; subst. cbn [app] in E. injection E as E. rewrite <- !app_assoc in E. destruct (quote_cut _ _ _ _ Ny Ny' E) as [-> ->]. auto.
  - exfalso. subst c. discriminate.
  - exfalso. subst c. destruct Hc'; discriminate.
  - exfalso. subst c. discriminate.
  - clear Hc Hc' Es Es'. inversion A as [| | | |? ss F]; inversion B as [| | | |? ss' F']; subst. clear A B. cbn [app] in E. injection E as E. rewrite <- !app_assoc in E. cbn [app] in E. cbn [List.length] in Hm. rewrite app_length in Hm. cbn [List.length] in Hm.
    assert (G : ts = ts' /\ r = r'); [|destruct G as [-> ->]; auto].
    assert (L : (List.length (join "," ss) <= m)%nat) by lia. clear Hm Hr Hr'. revert ts' ss' F' E.
    assert (J : forall s l, join "," (s :: l) = s ++ match l with [] => [] | _ => "," %char :: join "," l end) by (intros s [|? ?]; cbn [join]; [rewrite app_nil_r|]; reflexivity).
    assert (Hd : forall s t l r, spells t s -> "]"%char :: r = join "," (s :: l) ++ "]"%char :: r' -> False) by (intros s t l r0 Hs E; rewrite J in E; destruct (spells_head _ _ Hs) as (c0 & x0 & -> & N & _); injection E as E _; congruence).
    assert (Hd' : forall s t l r', spells t s -> join "," (s :: l) ++ "]"%char :: r = "]"%char :: r' -> False) by (intros s t l r0 Hs E; rewrite J in E; destruct (spells_head _ _ Hs) as (c0 & x0 & -> & N & _); injection E as E _; congruence).
    induction F as [|t s ts ss H F IHF]; intros ts' ss' F' E; destruct F' as [|t' s' ts' ss' H' F'].
    + injection E as ->. auto.
    + exfalso. exact (Hd _ _ _ _ H' E).
    + exfalso. exact (Hd' _ _ _ _ H E).
    + rewrite (J s ss) in E, L. rewrite (J s' ss') in E. rewrite <- !app_assoc in E. rewrite app_length in L.
      assert (S1 : forall (ss : list str) r, stops (match ss with [] => [] | _ => "," %char :: join "," ss end ++ "]"%char :: r)) by (intros [|? ?] ?; reflexivity).
      destruct (IH t t' s s' _ _ ltac:(lia) H H' (S1 _ _) (S1 _ _) E) as [-> E']. clear E S1.
      destruct ss as [|s1 ss], ss' as [|s1' ss']; cbn [app] in E'.
      * inversion F; inversion F'; subst. injection E' as ->. auto.
      * discriminate.
      * discriminate.
      * injection E' as E'. cbn [List.length] in L. destruct (IHF ltac:(lia) _ _ F' E') as [-> ->]. auto.
Qed.
Lemma spells_unique t t' s : spells t s -> spells t' s -> t = t'.
Proof. intros A B. destruct (spells_cut (List.length s) t t' s s [] [] (le_n _) A B I I eq_refl) as [-> _]. reflexivity. Qed.
Lemma output_unique text t t' : output_means text t -> output_means text t' -> t = t'.
Proof.
  intros (s & E & H) (s' & E' & H'). rewrite E in E'. apply app_inj_tail in E' as [-> _]. exact (spells_unique _ _ _ H H').
Qed.

Ltac flat := cbn [join app sep_by]; repeat (rewrite <- !app_assoc; cbn [app]); reflexivity.
(** ** Pieces of the text *)
Definition spelled (t : tree) (text : str) : Prop := spells t (unblank text).
Lemma number_clean d : number d -> clean d.
Proof.
  intros [_ H] c Hc. rewrite forallb_forall in H. specialize (H c Hc). unfold is_digit in H. unfold is_space. apply andb_true_iff in H as [H _]. apply Nat.leb_le in H. apply orb_false_iff. split; [apply Nat.eqb_neq; lia|]. apply andb_false_iff. right. apply Nat.leb_gt. lia.
Qed.
Lemma num_int n : int_text n (num n).
Proof.
  unfold num. destruct (Z.ltb_spec n 0) as [L|L].
  - right. exists (dec (- n)). destruct (dec_ok (- n) ltac:(lia)) as (A & B & _). split; [reflexivity|]. split; [assumption|lia].
  - left. destruct (dec_ok n L) as (A & B & _). auto.
Qed.
Lemma int_clean n s : int_text n s -> clean s.
Proof. intros [[A _]|(d & -> & A & _)]; [apply number_clean; exact A|]. intros c [<-|H]; [reflexivity|exact (number_clean d A c H)]. Qed.
Lemma num_unblank n : unblank (num n) = num n.
Proof. apply clean_unblank. exact (int_clean n _ (num_int n)). Qed.
Lemma num_spelled n : spelled (int n) (num n).
Proof. unfold spelled. rewrite num_unblank. apply sp_int, num_int. Qed.
Lemma num_pos n : 0 <= n -> number (num n) /\ dval (num n) = n.
Proof. intros H. unfold num. replace (n <? 0) with false by (symmetry; apply Z.ltb_ge; lia). destruct (dec_ok n H) as (A & B & _). auto. Qed.

Lemma sep_unblank sp l : unblank sp = ","%char :: [] -> unblank (sep_by sp l) = join "," (map unblank l).
Proof.
  intros H. induction l as [|s l IH]; [reflexivity|]. destruct l as [|s' l]; [reflexivity|]. change (sep_by sp (s :: s' :: l)) with (s ++ sp ++ sep_by sp (s' :: l)). rewrite !unblank_app, H, IH. reflexivity.
Qed.
Lemma list_spelled ts ss pre sp post : unblank pre = ["["%char] -> unblank sp = [","%char] -> unblank post = ["]"%char] -> Forall2 spelled ts ss -> spelled (Lst ts) (pre ++ sep_by sp ss ++ post).
Proof.
  intros A B C F. unfold spelled. rewrite !unblank_app, A, C, sep_unblank by assumption. apply (sp_list ts (map unblank ss)). clear - F. induction F; constructor; auto.
Qed.
Lemma ints_spelled c : Forall2 spelled (map int c) (map num c).
Proof. induction c as [|x c IH]; constructor; [apply num_spelled|exact IH]. Qed.
Lemma spells_list2 ts ss : Forall2 spells ts ss -> spells (Lst ts) ("["%char :: join "," ss ++ ["]"%char]).
Proof. apply sp_list. Qed.
Lemma mpz_upoly_spelled c : spelled (poly_tree c) (mpz_upoly_out c).
Proof.
  destruct c as [|x c].
  - unfold spelled, mpz_upoly_out, poly_tree, int. cbn [unblank].
    change (unblank (s_ "[" ++ s_ "-1, [0]" ++ s_ "]")) with ("["%char :: join "," [num (-1); "["%char :: join "," [num 0] ++ ["]"%char]] ++ ["]"%char]).
    apply sp_list. constructor; [apply sp_int, num_int|]. constructor; [|constructor]. apply sp_list. constructor; [apply sp_int, num_int|constructor].
  - unfold mpz_upoly_out, poly_tree. set (l := x :: c). clearbody l. unfold spelled. rewrite !unblank_app, num_unblank, sep_unblank by reflexivity.
    change (unblank (s_ "[")) with ["["%char]. change (unblank (s_ ", ")) with [","%char]. change (unblank (s_ "]")) with ["]"%char].
    match goal with |- spells _ (_ ++ (?d ++ _ ++ _ ++ ?j ++ _) ++ _) => replace (["["%char] ++ (d ++ [","%char] ++ ["["%char] ++ j ++ ["]"%char]) ++ ["]"%char]) with ("["%char :: join "," [d; "["%char :: j ++ ["]"%char]] ++ ["]"%char]) by flat end.
    apply sp_list. constructor; [apply sp_int, num_int|]. constructor; [|constructor]. apply sp_list. pose proof (ints_spelled l) as F. clear - F. induction F; constructor; auto.
Qed.
Lemma nmod_poly_spelled c : spelled (poly_tree c) (nmod_poly_out c).
Proof.
  destruct c as [|x c].
  - unfold spelled, nmod_poly_out, poly_tree, int.
    change (unblank _) with ("["%char :: join "," [num (-1); "["%char :: join "," [num 0] ++ ["]"%char]] ++ ["]"%char]).
    apply sp_list. constructor; [apply sp_int, num_int|]. constructor; [|constructor]. apply sp_list. constructor; [apply sp_int, num_int|constructor].
  - unfold nmod_poly_out, poly_tree. set (l := x :: c). clearbody l. unfold spelled. rewrite !unblank_app, num_unblank, sep_unblank by reflexivity.
    change (unblank (s_ "[")) with ["["%char]. change (unblank (s_ ",")) with [","%char]. change (unblank (s_ "]")) with ["]"%char]. change (unblank [nl]) with (@nil ascii).
    match goal with |- spells _ (_ ++ ?d ++ _ ++ _ ++ (_ ++ ?j ++ _) ++ _) => replace (["["%char] ++ d ++ [","%char] ++ [] ++ (["["%char] ++ j ++ ["]"%char]) ++ ["]"%char]) with ("["%char :: join "," [d; "["%char :: j ++ ["]"%char]] ++ ["]"%char]) by flat end.
    apply sp_list. constructor; [apply sp_int, num_int|]. constructor; [|constructor]. apply sp_list. pose proof (ints_spelled l) as F. clear - F. induction F; constructor; auto.
Qed.

(** ** Boxes *)
Definition ends (b : box) : (Z * Z) * (Z * Z) := ((val_do b, k_do b), (val_up b, k_up b)).
Lemma end_spelled v k : 0 <= k -> exists t, spelled t (end_out v k) /\ dyadic_tree (v, k) t.
Proof.
  intros H. unfold end_out. destruct (Z.eqb_spec k 0) as [->|Nk]; cbn [negb andb].
  - exists (int v). rewrite app_nil_r. split; [apply num_spelled|]. exists v, 1. cbn [fst snd]. split; [reflexivity|]. lia.
  - destruct (Z.eqb_spec v 0) as [->|Nv]; cbn [negb].
    + exists (int 0). rewrite app_nil_r. split; [apply num_spelled|]. exists 0, 1. cbn [fst snd]. split; [reflexivity|]. lia.
    + destruct (Z.ltb_spec 1 k) as [L|L].
      * exists (Val v (2 ^ k)). split.
        -- unfold spelled. rewrite !unblank_app, !num_unblank. destruct (num_pos k H) as [A B]. change (unblank (s_ " / ")) with ["/"%char]. change (unblank (s_ "2")) with ["2"%char]. change (unblank (s_ "^")) with ["^"%char].
           pose proof (sp_pow v (num v) ["2"%char] (num k) (num_int v) ltac:(split; [discriminate|reflexivity]) A) as K. rewrite B in K. exact K.
        -- exists v, (2 ^ k). cbn [fst snd]. split; [reflexivity|]. split; [apply Z.pow_pos_nonneg; lia|reflexivity].
      * assert (k = 1) by lia. subst k. exists (Val v 2). split.
        -- unfold spelled. rewrite !unblank_app, !num_unblank. exact (sp_quo v (num v) ["2"%char] (num_int v) ltac:(split; [discriminate|reflexivity])).
        -- exists v, 2. cbn [fst snd]. split; [reflexivity|]. lia.
Qed.
Definition k_nonneg (b : box) : Prop := 0 <= k_do b /\ 0 <= k_up b.
Lemma box_spelled b : k_nonneg b -> exists t, spelled t (box_out b) /\ box_tree (ends b) t.
Proof.
  intros [H1 H2]. destruct (end_spelled (val_do b) (k_do b) H1) as (t1 & S1 & D1). destruct (end_spelled (val_up b) (k_up b) H2) as (t2 & S2 & D2).
  exists (Lst [t1; t2]). split; [|exists t1, t2; auto]. unfold box_out. change (end_out (val_do b) (k_do b) ++ s_ ", " ++ end_out (val_up b) (k_up b) ++ s_ "]") with ((end_out (val_do b) (k_do b)) ++ (s_ ", " ++ end_out (val_up b) (k_up b) ++ s_ "]")).
  replace (s_ "[" ++ end_out (val_do b) (k_do b) ++ s_ ", " ++ end_out (val_up b) (k_up b) ++ s_ "]") with (s_ "[" ++ sep_by (s_ ", ") [end_out (val_do b) (k_do b); end_out (val_up b) (k_up b)] ++ s_ "]") by flat.
  apply list_spelled; try reflexivity. constructor; [assumption|]. constructor; [assumption|constructor].
Qed.
Lemma boxes_spelled pt : Forall k_nonneg pt -> exists l, Forall2 spelled l (map box_out pt) /\ Forall2 box_tree (map ends pt) l.
Proof.
  induction 1 as [|b pt H F (l & A & B)]; [exists []; split; constructor|]. destruct (box_spelled b H) as (t & S & T). exists (t :: l). split; constructor; assumption.
Qed.
Lemma point_spelled pt : pt <> [] -> Forall k_nonneg pt -> exists s t, point_out pt = Some s /\ spelled t s /\ point_tree (map ends pt) t.
Proof.
  intros N F. destruct (boxes_spelled pt F) as (l & A & B). unfold point_out. destruct pt as [|b pt]; [contradiction|]. eexists. exists (Lst l). split; [reflexivity|]. split; [apply list_spelled; [reflexivity|reflexivity|reflexivity|exact A]|exists l; auto].
Qed.
Lemma points_spelled pts : (forall pt, In pt pts -> pt <> [] /\ Forall k_nonneg pt) -> exists s t, points_out pts = Some s /\ spelled t s /\ points_tree (map (map ends) pts) t.
Proof.
  intros H. assert (G : exists ss l, omap point_out pts = Some ss /\ Forall2 spelled l ss /\ Forall2 point_tree (map (map ends) pts) l).
  { induction pts as [|pt pts IH]; [exists [], []; repeat split; constructor|]. destruct (H pt (or_introl eq_refl)) as [N F]. destruct (point_spelled pt N F) as (s & t & E & S & T). destruct IH as (ss & l & E' & S' & T'); [intros; apply H; right; assumption|].
    exists (s :: ss), (t :: l). cbn [omap]. rewrite E. cbn [obind]. rewrite E'. split; [reflexivity|]. split; constructor; assumption. }
  destruct G as (ss & l & E & S & T). unfold points_out. rewrite E. cbn [obind]. eexists. exists (Lst [int 1; Lst l]). split; [reflexivity|]. split; [|exists l; auto].
  pose proof (list_spelled l ss (s_ "[") (s_ ", ") (s_ "]") eq_refl eq_refl eq_refl S) as K. unfold spelled in *. rewrite !unblank_app in *.
  change (unblank (s_ "[1,")) with (["["%char] ++ num 1 ++ [","%char]). change (unblank [nl]) with (@nil ascii). change (unblank (s_ "]")) with ["]"%char] in *. change (unblank (s_ "[")) with ["["%char] in *.
  set (j := unblank (sep_by (s_ ", ") ss)) in *.
  replace ((["["%char] ++ num 1 ++ [","%char]) ++ [] ++ ["["%char] ++ j ++ ["]"%char] ++ [] ++ ["]"%char]) with ("["%char :: join "," [num 1; ["["%char] ++ j ++ ["]"%char]] ++ ["]"%char]) by flat.
  apply sp_list. constructor; [apply sp_int, num_int|]. constructor; [exact K|constructor].
Qed.

(** ** Names and linear form *)
Definition name_shown (x : string) : Prop := clean (s_ x) /\ ~ In quote (s_ x).
Lemma omap_seq {A B} (f : nat -> option B) (h : A -> B) (l : list A) : forall k, (forall i a, nth_error l i = Some a -> f (k + i)%nat = Some (h a)) -> omap f (seq k (List.length l)) = Some (map h l).
Proof.
  induction l as [|a l IH]; intros k H; [reflexivity|]. cbn [List.length seq omap map]. pose proof (H 0%nat a eq_refl) as H0. rewrite Nat.add_0_r in H0. rewrite H0. cbn [obind]. rewrite (IH (S k)); [reflexivity|]. intros i b Hb. replace (S k + i)%nat with (k + S i)%nat by lia. apply H. exact Hb.
Qed.
Lemma names_spelled nv names : List.length names = nv -> (0 < nv)%nat -> Forall name_shown names -> exists s, names_out nv names = Some s /\ unblank s = "["%char :: join "," (map (fun x => quote :: s_ x ++ [quote]) names) ++ ["]"; ","]%char /\ Forall2 spells (map Name (map s_ names)) (map (fun x => quote :: s_ x ++ [quote]) names).
Proof.
  intros L P F. unfold names_out. destruct nv as [|nv]; [lia|]. rewrite <- L. rewrite (omap_seq _ (fun x => s_ "'" ++ s_ x ++ s_ "'")) by (intros i a Ha; cbn [Nat.add]; rewrite Ha; reflexivity). cbn [obind]. eexists. split; [reflexivity|]. split.
  - rewrite !unblank_app, sep_unblank by reflexivity. change (unblank (s_ "[")) with ["["%char]. change (unblank (s_ "],")) with ["]"; ","]%char. change (unblank [nl]) with (@nil ascii). rewrite map_map.
    replace (map (fun x => unblank (s_ "'" ++ s_ x ++ s_ "'")) names) with (map (fun x => quote :: s_ x ++ [quote]) names); [reflexivity|]. clear - F. induction F as [|x l [H _] F IH]; [reflexivity|]. cbn [map]. rewrite IH. f_equal. rewrite !unblank_app, (clean_unblank _ H). reflexivity.
  - clear - F. induction F as [|x l [_ H] F IH]; constructor; [apply sp_name; exact H|exact IH].
Qed.

Lemma skipn_next {A} (l : list A) : forall i a r, skipn i l = a :: r -> skipn (S i) l = r.
Proof. induction l as [|x l IH]; intros [|i] a r H; cbn in *; try discriminate; [injection H as _ ->; reflexivity|exact (IH i a r H)]. Qed.
Lemma map_rep {A B} (f : A -> B) a n : map f (repeat a n) = repeat (f a) n.
Proof. induction n as [|n IH]; cbn; [reflexivity|rewrite IH; reflexivity]. Qed.
Lemma form_sum_ok nv form : (1 <= nv <= 2000)%nat -> (forall r, In r form -> r <> 0 /\ Z.abs r <= 128) -> forall l i sum, skipn i form = l -> (List.length l + i <= nv)%nat ->
  0 <= sum <= Z.of_nat i * (128 * Z.of_nat nv) ->
  let s := sum + fold_right Z.add 0 (map (fun r => Z.abs r * Z.of_nat nv - 1) l) in form_sum nv form (List.length l) i sum = Some s /\ 0 <= s.
Proof.
  intros Hn Hf. assert (Hn' : 1 <= Z.of_nat nv <= 2000) by lia. induction l as [|r l IH]; intros i sum Hs Hl Hb; cbn [fold_right map List.length form_sum]; [rewrite Z.add_0_r; split; [reflexivity|lia]|].
  assert (E : nth_error form i = Some r) by (rewrite <- hd_skipn, Hs; reflexivity). rewrite E. cbn [obind]. destruct (Hf r) as [N B]; [rewrite <- (firstn_skipn i form), Hs; apply in_or_app; right; left; reflexivity|].
  cbn [List.length] in Hl. assert (M : 1 * Z.of_nat nv <= Z.abs r * Z.of_nat nv <= 128 * Z.of_nat nv) by (split; apply Z.mul_le_mono_nonneg_r; lia).
  assert (T : Z.of_nat i * (128 * Z.of_nat nv) <= 2000 * (128 * 2000)) by (apply Z.mul_le_mono_nonneg; lia).
  assert (C : forall x, - 2 ^ 31 <= x < 2 ^ 31 -> chk 32 x = Some x). { intros x Hx. unfold chk. change (32 - 1) with 31. destruct (Z.leb_spec (- 2 ^ 31) x), (Z.ltb_spec x (2 ^ 31)); cbn [andb]; try reflexivity; lia. }
  rewrite (C (Z.abs r)) by lia. cbn [obind]. rewrite C by lia. cbn [obind]. rewrite C by lia. cbn [obind]. rewrite C by lia. cbn [obind].
  destruct (IH (S i) (sum + (Z.abs r * Z.of_nat nv - 1))) as [E' P'].
  - exact (skipn_next _ _ _ _ Hs).
  - lia.
  - lia.
  - rewrite E'. split; [f_equal; lia|]. lia.
Qed.
(** the linear form is held in a way that can be printed *)
Definition form_held (g : gens) : Prop :=
  if rand_linear g then List.length (random_linear_form g) = nvars g /\ (nvars g <= 2000)%nat /\ forall r, In r (random_linear_form g) -> r <> 0 /\ Z.abs r <= 128
  else 0 < linear_form_base_coef g -> Z.of_nat (nvars g - 1) ^ (linear_form_base_coef g - 1) < 2 ^ 31.
Lemma form_spelled g : (0 < nvars g)%nat -> form_held g -> exists s ss, form_out (nvars g) g = Some s /\ unblank s = "["%char :: join "," ss ++ ["]"; ","]%char /\ Forall2 spells (map (fun q => Val (fst q) (snd q)) (shown_form g)) ss.
Proof.
  intros P H. unfold form_held in H. unfold form_out, shown_form. destruct (rand_linear g).
  - destruct H as (L & B & R). set (form := random_linear_form g) in *.
    assert (T : exists sum, (if field_char g =? 0 then form_sum (nvars g) form (nvars g) 0 0 else Some 0) = Some sum /\ (field_char g = 0 -> sum = fold_right Z.add 0 (map (fun r => Z.abs r * Z.of_nat (nvars g) - 1) form) /\ 0 <= sum)).
    { destruct (Z.eqb_spec (field_char g) 0) as [E|E]; [|exists 0; split; [reflexivity|intros; contradiction]]. destruct (form_sum_ok (nvars g) form ltac:(lia) R form 0 0 eq_refl ltac:(lia) ltac:(lia)) as [E1 E2]. rewrite L in E1. eexists. split; [exact E1|]. intros _. split; [lia|exact E2]. }
    destruct T as (sum & -> & T). cbn [obind]. rewrite <- L.
    rewrite (omap_seq _ (fun r => num r ++ (if field_char g =? 0 then s_ "/" ++ num sum else []))) by (intros i a Ha; cbn [Nat.add]; rewrite Ha; reflexivity). cbn [obind]. eexists. eexists. split; [reflexivity|]. split.
    + rewrite !unblank_app, sep_unblank by reflexivity. reflexivity.
    + rewrite L. clear L R. rewrite !map_map. cbn [fst snd]. induction form as [|r form IH]; [constructor|]. cbn [map] in *.
      destruct (Z.eqb_spec (field_char g) 0) as [E|E].
      * destruct (T E) as [Ts Tp]. rewrite <- Ts.
        assert (G : forall l, Forall2 spells (map (fun x => Val x sum) l) (map (fun x => unblank (num x ++ s_ "/" ++ num sum)) l)).
        { induction l as [|x l IHl]; constructor; [|exact IHl]. rewrite !unblank_app, !num_unblank. destruct (num_pos sum Tp) as [A1 A2]. pose proof (sp_quo x (num x) (num sum) (num_int x) A1) as K. rewrite A2 in K. exact K. }
        exact (G (r :: form)).
      * assert (G : forall l, Forall2 spells (map (fun x => Val x 1) l) (map (fun x => unblank (num x ++ [])) l)).
        { induction l as [|x l IHl]; constructor; [|exact IHl]. rewrite app_nil_r, num_unblank. apply sp_int, num_int. }
        exact (G (r :: form)).
  - assert (U : forall l, Forall2 spells (map (fun q => Val (fst q) (snd q)) (map (fun x => (x, 1)) l)) (map unblank (map num l))).
    { intros l. rewrite !map_map. cbn [fst snd]. induction l as [|x l IH]; constructor; [|exact IH]. rewrite num_unblank. apply sp_int, num_int. }
    destruct (Z.ltb_spec 0 (linear_form_base_coef g)) as [B|B].
    + specialize (H B). set (e := linear_form_base_coef g - 1) in *.
      assert (W : omap (fun i => int_pow (Z.of_nat (i + 1)) e) (seq 0 (nvars g - 1)) = Some (map (fun i => Z.of_nat (S i) ^ e) (seq 0 (nvars g - 1)))).
      { assert (forall k c, (k + c <= nvars g - 1)%nat -> omap (fun i => int_pow (Z.of_nat (i + 1)) e) (seq k c) = Some (map (fun i => Z.of_nat (S i) ^ e) (seq k c))) as K; [|apply K; lia].
        intros k c. revert k. induction c as [|c IH]; intros k Hk; [reflexivity|]. cbn [seq omap map]. unfold int_pow at 1. replace (k + 1)%nat with (S k) by lia.
        assert (Z.of_nat (S k) ^ e <= Z.of_nat (nvars g - 1) ^ e) by (apply Z.pow_le_mono_l; lia). replace (Z.of_nat (S k) ^ e <? 2 ^ 31) with true by (symmetry; apply Z.ltb_lt; lia). cbn [obind]. rewrite IH by lia. reflexivity. }
      rewrite W. cbn [obind]. eexists. eexists. split; [reflexivity|]. split.
      * rewrite !unblank_app, sep_unblank by reflexivity. reflexivity.
      * pose proof (U (map (fun i => Z.of_nat (S i) ^ e) (seq 0 (nvars g - 1)) ++ [1])) as K. rewrite (map_app num), (map_app (fun x => (x, 1))) in K. rewrite (map_map (fun i => Z.of_nat (S i) ^ e) (fun x => (x, 1))) in K. exact K.
    + cbn [obind]. eexists. eexists. split; [reflexivity|]. split.
      * rewrite !unblank_app, sep_unblank by reflexivity. reflexivity.
      * pose proof (U (repeat 0 (nvars g - 1) ++ [1])) as K. rewrite (map_app num), (map_app (fun x => (x, 1))) in K. rewrite map_rep in K. exact K.
Qed.

(** ** Coordinates *)
Lemma coords_concat {A} (l : list A) (f : nat -> option (list ascii)) (h : A -> str) n : List.length l = (n - 1)%nat ->
  (forall i a, nth_error l i = Some a -> f i = Some (h a ++ (if (i =? n - 2)%nat then s_ "]" else s_ "],") ++ [nl])) ->
  exists ys, omap f (seq 0 (n - 1)) = Some ys /\ unblank (concat ys) = join "," (map (fun a => unblank (h a) ++ ["]"%char]) l).
Proof.
  intros L H. rewrite <- L. assert (G : forall l k, (k + List.length l = n - 1)%nat -> (forall i a, nth_error l i = Some a -> f (k + i)%nat = Some (h a ++ (if (k + i =? n - 2)%nat then s_ "]" else s_ "],") ++ [nl])) ->
    exists ys, omap f (seq k (List.length l)) = Some ys /\ unblank (concat ys) = join "," (map (fun a => unblank (h a) ++ ["]"%char]) l)).
  { clear. induction l as [|a l IH]; intros k Hk H; [exists []; split; reflexivity|]. cbn [List.length] in Hk. destruct (IH (S k)) as (ys & E & U); [lia| |].
    - intros i b Hb. replace (S k + i)%nat with (k + S i)%nat by lia. apply H. exact Hb.
    - cbn [List.length seq omap]. pose proof (H 0%nat a eq_refl) as H0. rewrite Nat.add_0_r in H0. rewrite H0. cbn [obind]. rewrite E. cbn [obind]. eexists. split; [reflexivity|]. cbn [concat]. rewrite unblank_app, U. destruct l as [|b l].
      + replace (k =? n - 2)%nat with true by (symmetry; apply Nat.eqb_eq; cbn [List.length] in Hk; lia). rewrite !unblank_app. cbn [map join]. change (unblank (s_ "]")) with ["]"%char]. change (unblank [nl]) with (@nil ascii). rewrite !app_nil_r. reflexivity.
      + replace (k =? n - 2)%nat with false by (symmetry; apply Nat.eqb_neq; cbn [List.length] in Hk; lia). rewrite !unblank_app. cbn [map join]. change (unblank (s_ "],")) with ["]"; ","]%char. change (unblank [nl]) with (@nil ascii). rewrite app_nil_r. rewrite <- !app_assoc. reflexivity. }
  apply (G l 0%nat); [lia|exact H].
Qed.
(** the numerators of a parametrisation as shown *)
Definition shown_ff (m : mparam) : list tree := match p_coords m with None => [] | Some cs => map (fun c => Lst [poly_tree c]) cs end.
Definition shown_qq (m : mparam) : list tree := match p_coords m with None => [] | Some cs => map (fun cd => Lst [poly_tree (fst cd); int (snd cd)]) (combine cs (p_cfs m)) end.
Definition coords_held (ff : bool) (m : mparam) (nv : nat) : Prop :=
  match p_coords m with None => True | Some cs => List.length cs = (nv - 1)%nat /\ p_nvars m = nv /\ (ff = false -> List.length (p_cfs m) = (nv - 1)%nat) end.
Lemma nmod_coords_spelled m nv : coords_held true m nv -> exists s ss, nmod_coords_out m = Some s /\ unblank s = join "," ss /\ Forall2 spells (shown_ff m) ss.
Proof.
  unfold coords_held, nmod_coords_out, shown_ff. destruct (p_coords m) as [cs|]; [|intros _; exists [], []; repeat split; constructor]. intros (L & E & _). subst nv.
  match goal with |- context [omap ?f _] => destruct (coords_concat cs f (fun c => s_ "[" ++ nmod_poly_out c) (p_nvars m) L) as (ys & E1 & E2) end.
  { intros i a Ha. rewrite Ha. cbn [obind]. rewrite <- app_assoc. reflexivity. }
  rewrite E1. cbn [obind]. eexists. eexists. split; [reflexivity|]. split; [exact E2|]. clear. induction cs as [|c cs IH]; constructor; [|exact IH]. rewrite unblank_app. apply (sp_list [poly_tree c] [unblank (nmod_poly_out c)]). constructor; [apply nmod_poly_spelled|constructor].
Qed.
Lemma nth_error_combine {A B} (l : list A) (l' : list B) : forall i a b, nth_error (combine l l') i = Some (a, b) -> nth_error l i = Some a /\ nth_error l' i = Some b.
Proof.
  revert l'. induction l as [|x l IH]; intros [|y l'] [|i] a b H; cbn in *; try discriminate; [injection H as -> ->; auto|auto].
Qed.
Lemma mpz_coords_spelled m nv : coords_held false m nv -> exists s ss, mpz_coords_out m = Some s /\ unblank s = join "," ss /\ Forall2 spells (shown_qq m) ss.
Proof.
  unfold coords_held, mpz_coords_out, shown_qq. destruct (p_coords m) as [cs|]; [|intros _; exists [], []; repeat split; constructor]. intros (L & E & Lc). specialize (Lc eq_refl). subst nv.
  match goal with |- context [omap ?f _] => destruct (coords_concat (combine cs (p_cfs m)) f (fun cd => s_ "[" ++ mpz_upoly_out (fst cd) ++ s_ "," ++ [nl] ++ num (snd cd)) (p_nvars m)) as (ys & E1 & E2) end.
  { rewrite combine_length. lia. }
  { intros i [c d] Ha. destruct (nth_error_combine _ _ _ _ _ Ha) as [-> ->]. cbn [obind fst snd]. rewrite <- !app_assoc. reflexivity. }
  rewrite E1. cbn [obind]. eexists. eexists. split; [reflexivity|]. split; [exact E2|]. clear. induction (combine cs (p_cfs m)) as [|[c d] l IH]; constructor; [|exact IH]. cbn [fst snd]. rewrite !unblank_app, num_unblank.
  change (unblank (s_ "[")) with ["["%char]. change (unblank (s_ ",")) with [","%char]. change (unblank [nl]) with (@nil ascii).
  match goal with |- spells _ ((_ ++ ?a ++ _ ++ _ ++ ?b) ++ _) => replace ((["["%char] ++ a ++ [","%char] ++ [] ++ b) ++ ["]"%char]) with ("["%char :: join "," [a; b] ++ ["]"%char]) by flat end.
  apply sp_list. constructor; [apply mpz_upoly_spelled|]. constructor; [apply sp_int, num_int|constructor].
Qed.

(** ** The parametrisation *)
Definition shown_param (g : gens) (dquot : Z) (param mod_param : mparam) : tree :=
  let ff := negb (field_char g =? 0) in
  let m := if ff then mod_param else param in
  param_tree (field_char g) (Z.of_nat (nvars g)) dquot (map s_ (vnames g)) (shown_form g) (p_elim m) (p_denom m) (if ff then shown_ff m else shown_qq m).
Lemma param_spelled g dquot param mod_param : (0 < nvars g)%nat -> List.length (vnames g) = nvars g -> Forall name_shown (vnames g) -> form_held g -> p_nvars param = nvars g ->
  (if field_char g =? 0 then coords_held false param (nvars g) else coords_held true mod_param (nvars g)) ->
  exists s, mpz_param_out g dquot param mod_param = Some s /\ spelled (shown_param g dquot param mod_param) s.
Proof.
  intros P L N F E C. unfold mpz_param_out, shown_param. rewrite E. destruct (names_spelled _ _ L P N) as (s1 & -> & U1 & S1). destruct (form_spelled g P F) as (s2 & ss2 & -> & U2 & S2). cbn [obind].
  assert (X : exists s3 ss3, (if negb (field_char g =? 0) then nmod_coords_out mod_param else mpz_coords_out param) = Some s3 /\ unblank s3 = join "," ss3 /\ Forall2 spells (if negb (field_char g =? 0) then shown_ff (if negb (field_char g =? 0) then mod_param else param) else shown_qq (if negb (field_char g =? 0) then mod_param else param)) ss3).
  { destruct (field_char g =? 0); cbn [negb]; [exact (mpz_coords_spelled _ _ C)|exact (nmod_coords_spelled _ _ C)]. }
  destruct X as (s3 & ss3 & -> & U3 & S3). cbn [obind]. eexists. split; [reflexivity|].
  match goal with |- context [if ?b then nmod_poly_out (p_elim mod_param) else ?e] => match goal with |- context [?X] => match X with (if b then nmod_poly_out (p_elim mod_param) else e) => set (pe := X) end end end.
  match goal with |- context [if ?b then nmod_poly_out (p_denom mod_param) else ?e] => match goal with |- context [?X] => match X with (if b then nmod_poly_out (p_denom mod_param) else e) => set (pd := X) end end end.
  set (m := if negb (field_char g =? 0) then mod_param else param) in *.
  assert (Se : spelled (poly_tree (p_elim m)) pe) by (subst m pe; destruct (negb _); [apply nmod_poly_spelled|apply mpz_upoly_spelled]).
  assert (Sd : spelled (poly_tree (p_denom m)) pd) by (subst m pd; destruct (negb _); [apply nmod_poly_spelled|apply mpz_upoly_spelled]).
  clearbody pe pd m. clear C. unfold spelled, param_tree in *. rewrite !unblank_app, !num_unblank, U1, U2, U3.
  change (unblank (s_ "[")) with ["["%char]. change (unblank (s_ ", ")) with [","%char]. change (unblank (s_ ",")) with [","%char]. change (unblank [nl]) with (@nil ascii). change (unblank (s_ "]]")) with ["]"; "]"]%char. change (unblank (s_ "]")) with ["]"%char].
  change (unblank (s_ "[1,")) with (["["%char] ++ num 1 ++ [","%char]).
  set (j1 := join "," (map (fun x : string => quote :: s_ x ++ [quote]) (vnames g))) in *. set (j2 := join "," ss2). set (j3 := join "," ss3). set (ue := unblank pe) in *. set (ud := unblank pd) in *.
  match goal with |- spells _ ?x => replace x with ("["%char :: join "," [num (field_char g); num (Z.of_nat (nvars g)); num dquot; "["%char :: j1 ++ ["]"%char]; "["%char :: j2 ++ ["]"%char];
    "["%char :: join "," [num 1; "["%char :: join "," [ue; ud; "["%char :: j3 ++ ["]"%char]] ++ ["]"%char]] ++ ["]"%char]] ++ ["]"%char]) by flat end.
  apply sp_list. constructor; [apply sp_int, num_int|]. constructor; [apply sp_int, num_int|]. constructor; [apply sp_int, num_int|]. constructor; [apply sp_list; exact S1|]. constructor; [apply sp_list; exact S2|]. constructor; [|constructor].
  apply sp_list. constructor; [apply sp_int, num_int|]. constructor; [|constructor]. apply sp_list. constructor; [exact Se|]. constructor; [exact Sd|]. constructor; [|constructor]. apply sp_list. exact S3.
Qed.
