(** Arrays of the library: proofs. *)
From Coq Require Import ZArith NArith Arith List Bool Lia Permutation Sorting.Sorted Znumtheory.
From Verif Require Import LinSpec MonoSpec MonoModel MonoProofs MonoCmpProofs GbSpec GbProofs GbIdeal F4Model LaProps RoundProofs F4Props ModInvModel InputSpec InputModel ImportModel ImportProofs ImportProps NfSpec NfModel NfProofs DrvModel DrvProofs LibSpec LibModel.
Import ListNotations.
Open Scope Z_scope.

(** ** Reading the arrays: what they denote is unique *)
Lemma split_at {A} (a b c d : list A) : length a = length c -> a ++ b = c ++ d -> a = c /\ b = d.
Proof. revert c. induction a as [|x a IH]; intros [|y c] L E; try discriminate; [auto|]. cbn in E. injection E as -> E. destruct (IH c) as (-> & ->); auto. Qed.
Lemma terms_unique n : forall f g : lpoly, (forall t, In t f -> length (snd t) = n) -> (forall t, In t g -> length (snd t) = n) -> concat (map snd f) = concat (map snd g) -> map fst f = map fst g -> f = g.
Proof.
  induction f as [|[x e] f IH]; intros [|[y e'] g] Hf Hg E1 E2; try discriminate; [reflexivity|]. cbn [map concat snd fst] in *. injection E2 as -> E2.
  destruct (split_at e (concat (map snd f)) e' (concat (map snd g))) as (-> & E3); [pose proof (Hf (y, e) (or_introl eq_refl)); pose proof (Hg (y, e') (or_introl eq_refl)); cbn [snd] in *; congruence|exact E1|]. f_equal. apply IH; auto; intros t Ht; [apply Hf|apply Hg]; now right.
Qed.
Lemma concat_unique {A} : forall s s' : list (list A), map (@length _) s = map (@length _) s' -> concat s = concat s' -> s = s'.
Proof. induction s as [|f s IH]; intros [|g s'] E1 E2; try discriminate; [reflexivity|]. cbn in E1, E2. injection E1 as L E1. destruct (split_at f (concat s) g (concat s') L E2) as (-> & E3). f_equal. now apply IH. Qed.
Lemma denotes_unique n a s s' : (forall f t, In f s -> In t f -> length (snd t) = n) -> (forall f t, In f s' -> In t f -> length (snd t) = n) -> denotes a s -> denotes a s' -> s = s'.
Proof.
  intros H H' (A & B & C) (A' & B' & C'). apply concat_unique.
  - rewrite A in A'. apply (f_equal (map Z.to_nat)) in A'. rewrite !map_map in A'. assert (Q : forall l : list lpoly, map (fun f => Z.to_nat (Z.of_nat (length f))) l = map (@length lterm) l) by (intros l; apply map_ext; intros f; apply Nat2Z.id).
    rewrite !Q in A'. exact A'.
  - apply (terms_unique n); [| |exact (eq_trans (eq_sym B) B')|exact (eq_trans (eq_sym C) C')]; intros t Ht; apply in_concat in Ht as (f & Hf & Ht); eauto.
Qed.

(** ** Writing the arrays *)
Lemma puts_ok {A} cap : forall (xs l : list A), (length l + length xs <= cap)%nat -> puts cap l xs = Ok (l ++ xs).
Proof.
  induction xs as [|x xs IH]; intros l H; cbn [puts]; [now rewrite app_nil_r|]. cbn [length] in H. unfold put. replace (length l <? cap)%nat with true by (symmetry; apply Nat.ltb_lt; lia). cbn [rbind].
  rewrite IH by (rewrite app_length; cbn; lia). now rewrite <- app_assoc.
Qed.
Lemma puts_len {A} cap : forall (xs l r : list A), (length l <= cap)%nat -> puts cap l xs = Ok r -> length r = (length l + length xs)%nat /\ (length r <= cap)%nat.
Proof.
  induction xs as [|x xs IH]; intros l r H E; cbn [puts] in E; [injection E as <-; cbn; lia|]. unfold put in E. destruct (Nat.ltb_spec (length l) cap); [|discriminate]. cbn [rbind] in E.
  apply IH in E; rewrite app_length in *; cbn in *; lia.
Qed.
Lemma int32_id x : - 2 ^ 31 <= x < 2 ^ 31 -> int32 x = x.
Proof. intros H. unfold int32. rewrite Z.mod_small by lia. lia. Qed.
(** polynomials the export can meet *)
Definition out_ok (nv : nat) (f : list (Z * mono)) : Prop := forall t, In t f -> - 2 ^ 31 <= fst t < 2 ^ 31 /\ length (snd t) = nv.
Definition fine (nev : nat) (f : list (Z * mono)) : Prop := nev = 0%nat \/ f <> [].
Lemma handed_len nv f : length (handed nv f) = terms_of f.
Proof. destruct f; [reflexivity|]. cbn [handed terms_of]. apply map_length. Qed.
Lemma handed_terms nv f t : out_ok nv f -> In t (handed nv f) -> length (snd t) = nv.
Proof. intros H Ht. destruct f as [|u f]; [destruct Ht as [<-|[]]; apply repeat_length|]. cbn [handed] in Ht. apply in_map_iff in Ht as (v & <- & Hv). cbn [snd]. rewrite map_length. apply (H v Hv). Qed.
Lemma concat_len {A} n : forall (l : list (list A)), (forall x, In x l -> length x = n) -> length (concat l) = (length l * n)%nat.
Proof. induction l as [|x l IH]; intros H; [reflexivity|]. cbn [concat length]. rewrite app_length, IH, (H x) by (try (now left); intros; apply H; now right). lia. Qed.
Lemma handed_exps nv f : out_ok nv f -> length (concat (map snd (handed nv f))) = (terms_of f * nv)%nat.
Proof. intros H. rewrite (concat_len nv). - now rewrite map_length, handed_len. - intros x Hx. apply in_map_iff in Hx as (t & <- & Ht). now apply (handed_terms nv f). Qed.
Lemma rmap_ok {A B} (f : A -> res B) g : forall l, (forall x, In x l -> f x = Ok (g x)) -> rmap f l = Ok (map g l).
Proof. induction l as [|x l IH]; intros H; [reflexivity|]. cbn [rmap map]. rewrite (H x) by (now left). cbn [rbind]. rewrite IH by (intros; apply H; now right). reflexivity. Qed.
Lemma export_poly_ok nv nev nt ne b f : (nev < nv)%nat -> out_ok nv f -> fine nev f -> Z.of_nat (length f) < 2 ^ 31 ->
  (length (f_lens b) + 1 <= ne)%nat -> (length (f_cfs b) + terms_of f <= nt)%nat -> (length (f_exps b) + terms_of f * nv <= nt * nv)%nat ->
  export_poly nv nev nt ne b f = Ok {| f_lens := f_lens b ++ [Z.of_nat (length (handed nv f))]; f_exps := f_exps b ++ concat (map snd (handed nv f)); f_cfs := f_cfs b ++ map fst (handed nv f) |}.
Proof.
  intros Hn Ho Hf Hs L1 L2 L3. destruct f as [|t f].
  - destruct Hf as [->|H]; [|contradiction]. unfold export_poly, export_zero_count, ht_evl. cbn [Nat.eqb terms_of] in *. replace (nv + 1 - 1)%nat with nv by lia.
    rewrite puts_ok by (cbn; lia). cbn [rbind]. rewrite puts_ok by (rewrite repeat_length; lia). cbn [rbind]. rewrite puts_ok by (cbn; lia). cbn [rbind handed map concat fst snd length]. now rewrite app_nil_r.
  - unfold export_poly. cbn [terms_of] in *. set (g := t :: f) in *. rewrite puts_ok by (cbn; lia). cbn [rbind]. rewrite puts_ok by (rewrite map_length; lia). cbn [rbind].
    rewrite (rmap_ok _ snd) by (intros u Hu; rewrite export_exponents_ok by (try exact Hn; apply (Ho u Hu)); reflexivity). cbn [rbind].
    assert (EH : handed nv g = map (fun t => (fst t, map Z.of_N (snd t))) g) by reflexivity.
    assert (E1 : map Z.of_N (concat (map snd g)) = concat (map snd (handed nv g))) by (rewrite EH, concat_map, !map_map; reflexivity). rewrite E1. pose proof (handed_exps nv g Ho) as LE. change (terms_of g) with (length g) in LE.
    rewrite puts_ok by (rewrite LE; lia). cbn [rbind]. rewrite handed_len. change (terms_of g) with (length g). rewrite int32_id by lia. f_equal. f_equal. f_equal. rewrite EH, map_map. apply map_ext_in. intros u Hu. cbn [fst]. apply int32_id. apply (Ho u Hu).
Qed.
Lemma export_polys_ok nv nev nt ne : (nev < nv)%nat -> forall G b, Forall (out_ok nv) G -> Forall (fine nev) G -> Z.of_nat (nterms G) < 2 ^ 31 ->
  (length (f_lens b) + length G <= ne)%nat -> (length (f_cfs b) + nterms G <= nt)%nat -> (length (f_exps b) + nterms G * nv <= nt * nv)%nat ->
  let s := map (handed nv) G in
  export_polys nv nev nt ne b G = Ok {| f_lens := f_lens b ++ map (fun f => Z.of_nat (length f)) s; f_exps := f_exps b ++ concat (map snd (concat s)); f_cfs := f_cfs b ++ map fst (concat s) |}.
Proof.
  intros Hn. induction G as [|f G IH]; intros b Ho Hf Hs L1 L2 L3; cbn [export_polys map concat]; [rewrite !app_nil_r; destruct b; reflexivity|].
  inversion Ho as [|? ? Ho1 Ho2]; subst. inversion Hf as [|? ? Hf1 Hf2]; subst. cbn [nterms fold_right length] in *. fold (nterms G) in *. assert (LT : (length f <= terms_of f)%nat) by (destruct f; cbn; lia).
  rewrite export_poly_ok; try assumption; try nia. cbn [rbind]. rewrite IH; cbn [f_lens f_exps f_cfs]; try assumption; rewrite ?app_length, ?map_length, ?handed_len, ?handed_exps by assumption; cbn [length]; try lia; try nia.
  rewrite !map_app, concat_app, <- !app_assoc. reflexivity.
Qed.
Lemma nterms_ge G : (length G <= nterms G)%nat.
Proof. induction G as [|f G IH]; [cbn; lia|]. cbn [length nterms fold_right]. fold (nterms G). assert (1 <= terms_of f)%nat by (destruct f; cbn; lia). lia. Qed.
Lemma export_data_ok nv nev G : (nev < nv)%nat -> Forall (out_ok nv) G -> Forall (fine nev) G -> Z.of_nat (nterms G) < 2 ^ 31 ->
  exists a, export_data nv nev G = Ok (Z.of_nat (nterms G), Some (Z.of_nat (length G), a)) /\ denotes a (map (handed nv) G).
Proof.
  intros Hn Ho Hf Hs. pose proof (nterms_ge G) as LG. unfold export_data. replace (2 ^ 31 <? Z.of_nat (length G)) with false by (symmetry; apply Z.ltb_ge; lia).
  rewrite export_polys_ok; cbn [f_lens f_exps f_cfs length]; try assumption; try lia. cbn [rbind app]. rewrite int32_id by lia. eexists. split; [reflexivity|]. repeat split.
Qed.
(** A zero polynomial in a block order: more exponents are written than there is room for. *)
Definition zeros (G : list (list (Z * mono))) : nat := length (filter (fun f : list (Z * mono) => match f with [] => true | _ => false end) G).
Lemma export_exponents_len nv nev ev l : (nev < nv)%nat -> export_exponents nv nev ev = Some l -> length l = nv.
Proof.
  intros Hn E. unfold export_exponents in E. assert (R : forall cnt i r, read_range cnt i ev = Some r -> length r = cnt).
  { induction cnt as [|cnt IH]; intros i r Er; cbn [read_range] in Er; [injection Er as <-; reflexivity|]. destruct (rd ev i); [|discriminate]. cbn [obind] in Er. destruct (read_range cnt (S i) ev) as [r'|] eqn:E'; [|discriminate]. cbn [obind] in Er. injection Er as <-. cbn. now rewrite (IH _ _ E'). }
  destruct (read_range (ht_ebl nev - 1) 1 ev) as [l1|] eqn:E1; [|discriminate]. cbn [obind] in E. destruct (read_range (ht_evl nv nev - (ht_ebl nev + 1)) (ht_ebl nev + 1) ev) as [l2|] eqn:E2; [|discriminate]. cbn [obind] in E. injection E as <-.
  rewrite app_length, (R _ _ _ E1), (R _ _ _ E2). unfold ht_ebl, ht_evl. destruct (Nat.eqb_spec nev 0); lia.
Qed.
Definition decided {A} (x : res A) : Prop := match x with Ok _ | Undef => True | _ => False end.
Lemma puts_decided {A} cap : forall (xs l : list A), decided (puts cap l xs).
Proof. induction xs as [|x xs IH]; intros l; cbn; [exact Logic.I|]. unfold put. destruct (_ <? _)%nat; cbn; [apply IH|exact Logic.I]. Qed.
Lemma bind_decided {A B} (x : res A) (f : A -> res B) : decided x -> (forall a, decided (f a)) -> decided (rbind x f).
Proof. destruct x; cbn; auto. Qed.
Lemma rmap_opt_decided {A B} (f : A -> option B) : forall l, decided (rmap (fun x => of_opt (f x)) l).
Proof. induction l as [|x l IH]; cbn; [exact Logic.I|]. destruct (f x); cbn; [|exact Logic.I]. apply bind_decided; [exact IH|]. intros; exact Logic.I. Qed.
Lemma export_poly_decided nv nev nt ne b f : decided (export_poly nv nev nt ne b f).
Proof. destruct f; unfold export_poly; repeat (apply bind_decided; [first [apply puts_decided|apply rmap_opt_decided]|intros]); exact Logic.I. Qed.
Lemma export_polys_decided nv nev nt ne : forall G b, decided (export_polys nv nev nt ne b G).
Proof. induction G as [|f G IH]; intros b; cbn [export_polys]; [exact Logic.I|]. apply bind_decided; [apply export_poly_decided|exact IH]. Qed.
Lemma bind_inv {A B} (x : res A) (f : A -> res B) r : rbind x f = Ok r -> exists a, x = Ok a /\ f a = Ok r.
Proof. destruct x; cbn; intros E; try discriminate. eauto. Qed.
Lemma rmap_opt_lens {A} (f : (Z * mono) -> option (list A)) n : (forall t l, f t = Some l -> length l = n) -> forall l r, rmap (fun x => of_opt (f x)) l = Ok r -> length (concat r) = (length l * n)%nat.
Proof.
  intros H. induction l as [|t l IH]; intros r E; cbn [rmap] in E; [injection E as <-; reflexivity|]. apply bind_inv in E as (x & Ex & E). apply bind_inv in E as (xs & Exs & E). injection E as <-.
  destruct (f t) as [x'|] eqn:Ef; [|discriminate]. injection Ex as ->. cbn [concat length]. rewrite app_length, (H _ _ Ef), (IH _ Exs). lia.
Qed.
Lemma export_polys_len nv nev nt ne : (0 < nev < nv)%nat -> forall G b b', (length (f_exps b) <= nt * nv)%nat -> export_polys nv nev nt ne b G = Ok b' ->
  length (f_exps b') = (length (f_exps b) + nterms G * nv + zeros G)%nat /\ (length (f_exps b') <= nt * nv)%nat.
Proof.
  intros Hn. induction G as [|f G IH]; intros b b' Hb E; cbn [export_polys] in E; [injection E as <-; cbn; lia|]. apply bind_inv in E as (b1 & E1 & E).
  assert (K : length (f_exps b1) = (length (f_exps b) + terms_of f * nv + zeros [f])%nat /\ (length (f_exps b1) <= nt * nv)%nat).
  { destruct f as [|t f]; unfold export_poly in E1.
    - apply bind_inv in E1 as (x1 & _ & E1). apply bind_inv in E1 as (x2 & P2 & E1). apply bind_inv in E1 as (x3 & _ & E1). injection E1 as <-. cbn [f_exps]. apply puts_len in P2; [|exact Hb]. rewrite repeat_length in P2. unfold export_zero_count, ht_evl in P2.
      destruct (Nat.eqb_spec nev 0); [lia|]. cbn [terms_of zeros filter length]. lia.
    - apply bind_inv in E1 as (x1 & _ & E1). apply bind_inv in E1 as (x2 & _ & E1). apply bind_inv in E1 as (x3 & P3 & E1). apply bind_inv in E1 as (x4 & P4 & E1). injection E1 as <-. cbn [f_exps].
      apply puts_len in P4; [|exact Hb]. rewrite map_length in P4. rewrite (rmap_opt_lens (fun t0 => export_exponents nv nev (lay nev (snd t0))) nv) with (2 := P3) in P4 by (intros; eapply export_exponents_len; [|eassumption]; lia). cbn [terms_of zeros filter length] in *. lia. }
  destruct K as [K1 K2]. destruct (IH b1 b' K2 E) as [I1 I2]. split; [|exact I2]. rewrite I1, K1. cbn [nterms fold_right]. fold (nterms G). replace (zeros (f :: G)) with (zeros [f] + zeros G)%nat by (unfold zeros; cbn [filter]; destruct f; cbn; lia). lia.
Qed.
Lemma zeros_in G : In [] G -> (1 <= zeros G)%nat.
Proof. induction G as [|f G IH]; intros H; [destruct H|]. unfold zeros in *. cbn [filter]. destruct f as [|t f]; [cbn; lia|]. destruct H as [H|H]; [discriminate|]. now apply IH. Qed.
Lemma export_data_zero nv nev G : (0 < nev < nv)%nat -> Z.of_nat (length G) <= 2 ^ 31 -> In [] G -> export_data nv nev G = Undef.
Proof.
  intros Hn HL HZ. unfold export_data. replace (2 ^ 31 <? Z.of_nat (length G)) with false by (symmetry; apply Z.ltb_ge; lia). set (b0 := {| f_lens := []; f_exps := []; f_cfs := [] |}).
  pose proof (export_polys_decided nv nev (nterms G) (length G) G b0) as D. destruct (export_polys nv nev (nterms G) (length G) b0 G) as [b| | |] eqn:E; cbn in D; try contradiction; [|reflexivity]. exfalso.
  apply export_polys_len in E; [|exact Hn|cbn; lia]. cbn [b0 f_exps length] in E. pose proof (zeros_in G HZ). lia.
Qed.

(** ** The import *)
Definition to_ip (f : lpoly) : ipoly := map (fun t => ((fst t, 1), snd t)) f.
Lemma to_ip_ok p n f : given_poly p n f -> ipoly_ok p n (to_ip f).
Proof.
  intros (NE & ND & T). split; [destruct f; [contradiction|discriminate]|]. split.
  - apply Forall_forall. intros t Ht. apply in_map_iff in Ht as (u & <- & Hu). destruct (T u Hu) as (A & B & C & D & F). unfold term_ok. cbn [fst snd]. tauto.
  - unfold to_ip. rewrite map_map. exact ND.
Qed.
Lemma to_gen_ip f : to_gen (to_ip f) = map (fun t => (fst t, to_mono (snd t))) f.
Proof. unfold to_gen, to_ip. rewrite map_map. reflexivity. Qed.
Lemma to_mono_meant p n f : given_poly p n f -> to_gen (to_ip f) = meant f.
Proof.
  intros (_ & _ & T). rewrite to_gen_ip. unfold meant. apply map_ext_in. intros t Ht. f_equal. destruct (T t Ht) as (_ & _ & _ & _ & F). unfold to_mono. apply map_ext_in. intros x Hx. rewrite Forall_forall in F. specialize (F x Hx). rewrite Z.mod_small by lia. reflexivity.
Qed.
Lemma cf_perm f g m : Permutation f g -> cf f m = cf g m.
Proof. induction 1 as [|t f g _ IH|t u f| f g h _ IH1 _ IH2]; cbn [cf]; [reflexivity|destruct (mono_dec _ _); lia|destruct (mono_dec _ _), (mono_dec _ _); lia|lia]. Qed.
Lemma cf_mod p f m : 0 < p -> eqp p (cf (map (fun t => (fst t mod p, snd t)) f) m) (cf f m).
Proof.
  intros Hp. induction f as [|t f IH]; cbn [map cf fst snd]; [exists 0; ring|]. destruct (mono_dec _ _); [|exact IH]. destruct IH as (q & Hq). exists (q - fst t / p). pose proof (Z.div_mod (fst t) p ltac:(lia)). lia.
Qed.
Lemma imported_cf nv p (le : mono -> mono -> Prop) g row : 0 < p -> imported p le g row -> peq nv p (cf g) (cf (combine (fst row) (snd row))).
Proof. intros Hp (_ & _ & PE & _) m _. rewrite (cf_perm _ _ m PE). destruct (cf_mod p g m Hp) as (q & Hq). exists (- q). lia. Qed.
Definition sorts_all (o : ordering) (sorter : list mono -> list nat) : Prop := forall l, Forall (fun m => length m = o_nv o) l -> sorts (gens_le o) sorter l.
(** the polynomial kept for a given one *)
Definition kept (o : ordering) (p : Z) (f : lpoly) (h : list (Z * mono)) : Prop := sorted_poly (o_nv o) (o_lt o) p h /\ peq (o_nv o) p (cf (meant f)) (cf h).
Lemma kept_of o p f row : o_ok o -> (o_nev o <> 0 \/ o_mo o <> 1)%nat -> 1 < p -> given_poly p (o_nv o) f -> imported p (gens_le o) (to_gen (to_ip f)) row -> kept o p f (combine (fst row) (snd row)).
Proof.
  intros OK OM P G IM. split; [apply (imported_sorted o p (to_ip f) row OK OM P); [now apply to_ip_ok|exact IM]|]. rewrite <- (to_mono_meant p (o_nv o) f G). apply (imported_cf _ p (gens_le o)); [lia|exact IM].
Qed.
Lemma sum_len_ok s : sum_len (map (fun f : lpoly => Z.of_nat (length f)) s) = length (concat s).
Proof. induction s as [|f s IH]; [reflexivity|]. cbn [map sum_len fold_right concat]. fold (sum_len (map (fun f0 : lpoly => Z.of_nat (length f0)) s)). rewrite IH, app_length, Nat2Z.id. reflexivity. Qed.
Lemma arrays_of n a (s : list lpoly) : (forall f t, In f s -> In t f -> length (snd t) = n) -> denotes a s ->
  let G := map (fun f => to_gen (to_ip f)) s in
  chunks (sum_len (a_lens a)) n (a_exps a) = Some (map snd (concat s)) /\ map Z.to_nat (a_lens a) = lens_of G /\ map to_mono (map snd (concat s)) = mons_of G /\ a_cfs a = cfs_of G.
Proof.
  intros H (A & B & C) G. split; [|split; [|split]].
  - assert (EL : sum_len (a_lens a) = length (map snd (concat s))) by (rewrite A; etransitivity; [apply sum_len_ok|symmetry; apply map_length]). rewrite EL, B. pose proof (chunks_ok n (map snd (concat s)) []) as Q. rewrite app_nil_r in Q. apply Q. intros m Hm. apply in_map_iff in Hm as (t & <- & Ht). apply in_concat in Ht as (f & Hf & Ht). eauto.
  - rewrite A, map_map. unfold lens_of, G. rewrite map_map. apply map_ext. intros f. rewrite to_gen_ip, map_length. apply Nat2Z.id.
  - unfold mons_of, G. rewrite !map_map, concat_map. f_equal. apply map_ext. intros f. rewrite to_gen_ip, !map_map. reflexivity.
  - unfold cfs_of, G. rewrite C, concat_map, map_map. f_equal. apply map_ext. intros f. rewrite to_gen_ip, !map_map. reflexivity.
Qed.
Section Import.
Variables (o : ordering) (p : Z) (sorter : list mono -> list nat) (presort : list (list (Z * mono)) -> list (list (Z * mono))).
Hypotheses (OK : o_ok o) (OM : (o_nev o <> 0 \/ o_mo o <> 1)%nat) (P : 1 < p < 2 ^ 31) (HS : sorts_all o sorter) (HP : forall l, Permutation l (presort l)).
Lemma gens_in s : Forall (given_poly p (o_nv o)) s -> forall g, In g (map (fun f => to_gen (to_ip f)) s) -> in_range p g /\ sorts (gens_le o) sorter (map snd g).
Proof.
  intros HG g Hg. rewrite Forall_forall in HG. apply in_map_iff in Hg as (f & <- & Hf). destruct (HG f Hf) as (_ & _ & T). rewrite to_gen_ip. split.
  - apply Forall_forall. intros t Ht. apply in_map_iff in Ht as (u & <- & Hu). cbn [fst]. destruct (T u Hu) as (A & B & _). split; assumption.
  - apply HS. apply Forall_forall. intros m Hm. rewrite map_map in Hm. apply in_map_iff in Hm as (u & <- & Hu). cbn [snd]. unfold to_mono. rewrite map_length. apply (T u Hu).
Qed.
Lemma given_len s : Forall (given_poly p (o_nv o)) s -> forall f t, In f s -> In t f -> length (snd t) = o_nv o.
Proof. intros HG f t Hf Ht. rewrite Forall_forall in HG. destruct (HG f Hf) as (_ & _ & T). apply (T t Ht). Qed.
Lemma rows_kept s rows : Forall (given_poly p (o_nv o)) s -> Forall2 (imported p (gens_le o)) (map (fun f => to_gen (to_ip f)) s) rows -> Forall2 (kept o p) s (map (fun row => combine (fst row) (snd row)) rows).
Proof. revert rows. induction s as [|f s IH]; intros rows HG H; inversion H; subst; cbn [map]; constructor; inversion HG; subst; [apply kept_of; auto; lia|]. now apply IH. Qed.
Lemma lib_import_kept a s : s <> [] -> Forall (given_poly p (o_nv o)) s -> denotes a s -> exists H, lib_import o sorter presort p a = Some (1, presort H) /\ Forall2 (kept o p) s H.
Proof.
  intros NE HG D. destruct (arrays_of (o_nv o) a s (given_len s HG) D) as (E1 & E2 & E3 & E4). unfold lib_import. rewrite E1. cbn [obind]. rewrite E2, E3, E4. set (G := map (fun f => to_gen (to_ip f)) s) in *.
  destruct (C37_complete mono (gens_le o) sorter p G (Z.of_nat (o_nv o))) as (rows & EI & IM).
  - lia.
  - unfold o_ok in OK. lia.
  - unfold G. destruct s; [contradiction|discriminate].
  - apply (gens_in s HG).
  - intros g t Hg Ht. unfold G in Hg. apply in_map_iff in Hg as (f & <- & Hf). rewrite to_gen_ip in Ht. apply in_map_iff in Ht as (u & <- & Hu). cbn [fst]. rewrite Forall_forall in HG. destruct (HG f Hf) as (_ & _ & T). destruct (T u Hu) as (_ & _ & C & _). intros E. apply C. exists 0. exact E.
  - rewrite EI. cbn [obind fst snd]. eexists. split; [reflexivity|]. apply (rows_kept s rows HG IM).
Qed.
Lemma lib_import_ok a s : s <> [] -> Forall (given_poly p (o_nv o)) s -> denotes a s ->
  exists F, lib_import o sorter presort p a = Some (1, F) /\ Forall (sorted_poly (o_nv o) (o_lt o) p) F /\ same_ideal (o_nv o) p (pfs (map meant s)) (pfs F).
Proof.
  intros NE HG D. destruct (lib_import_kept a s NE HG D) as (H & EI & KE). rewrite EI. eexists. split; [reflexivity|]. split.
    + apply (Permutation_Forall (HP H)). clear - KE. induction KE as [|f h s H [K _] _ IH]; constructor; assumption.
    + apply same_ideal_intro.
      * intros h (f' & Hf' & ->). apply in_map_iff in Hf' as (f & <- & Hf). clear - KE Hf HP. assert (Q : exists h, In h H /\ kept o p f h). { clear HP. induction KE; [destruct Hf|]. destruct Hf as [<-|Hf]; [eexists; split; [now left|assumption]|]. destruct (IHKE Hf) as (h & Hh & K). exists h. split; [now right|exact K]. }
        destruct Q as (h & Hh & _ & Q). eapply ls_eq; [apply ideal_gen; exists h; split; [apply (Permutation_in _ (HP H)); exact Hh|reflexivity]|]. apply peq_sym. exact Q.
      * intros g (h & Hh & ->). apply (Permutation_in _ (Permutation_sym (HP H))) in Hh. clear - KE Hh. assert (Q : exists f, In f s /\ kept o p f h). { induction KE; [destruct Hh|]. destruct Hh as [<-|Hh]; [eexists; split; [now left|eassumption]|]. destruct (IHKE Hh) as (f & Hf & K). exists f. split; [now right|exact K]. }
        destruct Q as (f & Hf & _ & Q). eapply ls_eq; [apply ideal_gen; exists (meant f); split; [apply in_map; exact Hf|reflexivity]|]. exact Q.
Qed.
Lemma tbr_import_ok a s : Forall (given_poly p (o_nv o)) s -> denotes a s -> exists T, tbr_import o sorter p a = Some T /\ Forall2 (kept o p) s T.
Proof.
  intros HG D. destruct (arrays_of (o_nv o) a s (given_len s HG) D) as (E1 & E2 & E3 & E4). unfold tbr_import. rewrite E1. cbn [obind]. rewrite E2, E3, E4. set (G := map (fun f => to_gen (to_ip f)) s) in *.
  assert (LA : length (a_lens a) = length G) by (destruct D as (-> & _); unfold G; now rewrite !map_length). rewrite LA. unfold import_input_data. rewrite Nat.sub_0_r. change (init_off (lens_of G) 0) with 0%nat.
  destruct (import_rows_ok sorter p CF (fun _ => false) (import_row_ff sorter (ff_bits p) p) (imported p (gens_le o))) with (cnt := length G) (pre := @nil (list (Z * mono))) (gens := G) as (rows & EI & IM).
  - reflexivity.
  - lia.
  - intros g Hg _. rewrite firstn_all in Hg. destruct (gens_in s HG g Hg) as [R S0]. destruct (C38_class p ltac:(lia)) as [B _]. destruct (import_row_ff_ok sorter (ff_bits p) p (map fst g) (map snd g)) as (row & Er & Fr).
    + lia.
    + exact B.
    + apply Forall_forall. intros x Hx. apply in_map_iff in Hx as (t & <- & Ht). unfold in_range in R. rewrite Forall_forall in R. exact (R t Ht).
    + now rewrite !map_length.
    + apply S0.
    + exists row. split; [exact Er|]. apply (imported_of (gens_le o) sorter); assumption.
  - cbn [app] in EI. rewrite map_length || idtac. assert (ER : map (fun _ : list (Z * mono) => false) G = repeat false (length G)) by (clear; induction G; cbn; [reflexivity|now f_equal]). rewrite ER in EI. change (length (@nil (list (Z * mono)))) with 0%nat in EI. change (length (cfs_of (@nil (list (Z * mono))))) with 0%nat in EI. rewrite EI. cbn [obind].
    eexists. split; [reflexivity|]. apply rows_kept; [exact HG|]. fold G. rewrite firstn_all in IM. replace (filter (fun _ : list (Z * mono) => negb false) G) with G in IM by (clear; induction G; cbn; [reflexivity|now f_equal]). exact IM.
Qed.
End Import.
