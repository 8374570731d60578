(** The normal forms computed by core_nf. *)
From Coq Require Import ZArith NArith Arith List Bool Lia Permutation Sorted Znumtheory.
From Verif Require Import LinSpec MonoSpec MonoModel MonoSpecProofs MonoCmpProofs GbSpec GbProofs GbIdeal LaModel LaSpec LaProofs LaRowProofs LaSysProofs LaProps F4Model UpdProofs F4Rows SymbProofs SelProofs MatProofs RoundProofs NfSpec NfModel.
Import ListNotations.
Open Scope Z_scope.

(** a row given by increasing columns of a decreasing list of monomials *)
Lemma row_sorted nv (lt : mono -> mono -> Prop) p (L R : list mono) (r : list (nat * Z)) (f : list (Z * mono)) : ForallOrdPairs (fun a b => lt b a) R -> (forall m, In m R -> length m = nv) ->
  canon p r -> (forall t, In t r -> (length L <= fst t)%nat) -> Forall2 (fun t s => snd t = fst s /\ nth_error (L ++ R) (fst t) = Some (snd s)) r f ->
  f = [] \/ sorted_poly nv lt p f.
Proof.
  intros HD HL [SC CC] Ge F. destruct f as [|s0 f0]; [left; reflexivity|right]. remember (s0 :: f0) as f eqn:Ef. assert (Nf : f <> []) by (subst f; discriminate). clear Ef s0 f0.
  assert (InR : forall j m, (length L <= j)%nat -> nth_error (L ++ R) j = Some m -> nth_error R (j - length L) = Some m) by (intros j m Hj E; rewrite nth_error_app2 in E by exact Hj; exact E).
  split; [exact Nf|]. split.
  - intros t Ht. destruct (F2_in_r _ _ _ _ F Ht) as (s & Hs & E1 & E2). rewrite <- E1. split; [apply CC; exact Hs|]. apply HL. eapply nth_error_In. apply (InR _ _ (Ge s Hs) E2).
  - intros i j s t Hi Hj Hij. assert (Nth : forall i s, nth_error f i = Some s -> exists s0, nth_error r i = Some s0 /\ nth_error (L ++ R) (fst s0) = Some (snd s)).
    { clear - F. induction F as [|x y r f [F1 F2] F IH]; intros i s Hi; [destruct i; discriminate|]. destruct i as [|i]; [injection Hi as <-; exists x; auto|]. apply IH. exact Hi. }
    destruct (Nth i s Hi) as (s0 & Hs0 & Es). destruct (Nth j t Hj) as (t0 & Ht0 & Et). assert (Lst : (fst s0 < fst t0)%nat).
    { clear - SC Hs0 Ht0 Hij. revert i j Hs0 Ht0 Hij. induction r as [|x r IH]; intros i j Hs0 Ht0 Hij; [destruct i; discriminate|]. cbn [map] in SC. inversion SC as [|? ? S1 S2]; subst. destruct j as [|j]; [lia|]. destruct i as [|i]; cbn in Hs0, Ht0.
      - injection Hs0 as <-. rewrite Forall_forall in S2. apply S2. apply in_map. eapply nth_error_In; eassumption.
      - apply (IH S1 i j); auto. lia. }
    pose proof (Ge s0 (nth_error_In _ _ Hs0)) as G1. pose proof (Ge t0 (nth_error_In _ _ Ht0)) as G2. apply (FOP_nth _ _ HD (fst s0 - length L) (fst t0 - length L)); [lia|apply InR; assumption|apply InR; assumption].
Qed.

Section Nf.
Variable c : config.
Hypothesis CK : cfg_ok c.
Let o := c_o c.
Let nv := o_nv o.
Let lt := o_lt o.
Let p := c_p c.
Let MO : mono_order nv lt := o_lt_order o.
Let Hp : 1 < p := cfg_p c CK.

Theorem core_nf_ok els lmps tbr : els_ok nv lt p els -> (forall i, In i lmps -> (i < length els)%nat) -> Forall (sorted_poly nv lt p) tbr ->
  exists N, forall fuel, okn fuel N (core_nf c fuel els lmps tbr)
    (Forall2 (fun f h => ideal nv p (pfs (map e_pol els)) (fun u => cf f u - cf h u) /\ (forall t i g, In t h -> In i lmps -> nth_error els i = Some g -> ~ mdvd (e_lm g) (snd t)) /\ (h = [] \/ sorted_poly nv lt p h)) tbr).
Proof.
  intros HE HL0 HT. rewrite Forall_forall in HT. set (sht := sht_rows [] tbr).
  assert (ShtIn : forall m, In m sht <-> exists rw (t : Z * mono), In rw tbr /\ In t rw /\ snd t = m) by (intros m; unfold sht; rewrite sht_rows_in; cbn; intuition).
  assert (ShtLen : forall m, In m sht -> length m = nv).
  { intros m Hm. apply ShtIn in Hm as (f & t & Hf & Ht & <-). destruct (HT f Hf) as (_ & K & _). apply (K t Ht). }
  assert (SI0 : SI nv els lmps [] (length sht) [] 0 sht [] []).
  { constructor.
    - apply sht_rows_nd. constructor.
    - exact ShtLen.
    - intros m [].
    - constructor.
    - intros m [].
    - constructor.
    - intros r [].
    - exists []. split; [reflexivity|]. intros x [].
    - intros j m Hj. lia. }
  destruct (closure_join nv els lmps sht) as (C & C1 & C2 & C3); [intros m Hm'; apply (closure_exists nv lt p MO); auto|].
  exists (length C). intros fuel. unfold core_nf. fold sht. unfold when at 1. destruct (forallb _ tbr); cbn [rbind okn]; [|exact I].
  pose proof (symb_ok nv lt p MO els lmps HE HL0 [] (length sht) [] C C2 fuel 0 sht [] [] SI0 C1) as SO. rewrite Nat.sub_0_r in SO.
  eapply okn_bind; [exact SO|]. intros [[sht' leads] rr] (B1 & B2 & B3 & B4 & _ & B6 & B7 & B8 & _ & B10). apply okl_okn.
  set (L := fst (columns (c_o c) sht' leads)). set (R := snd (columns (c_o c) sht' leads)). set (hcm := L ++ R).
  unfold when. destruct (cols_fit (c_k c) (c_p c) (length hcm)) eqn:Ef; cbn [rbind okl]; [|exact I]. apply cols_fit_ok in Ef.
  pose proof (hcm_nd o sht' leads B1 B6) as HN. change (NoDup hcm) in HN.
  assert (Hin : forall m, In m hcm <-> In m sht') by (intros m; apply (hcm_in o sht' leads B6)).
  pose proof (mat_ok o p (ck_o c CK) sht' leads els rr [] HE B1 B2 B4 B6 B7 B8 (fun r (H : In r []) => match H with end)) as (K1 & K2 & K3 & _).
  fold o in L, R. change (fst (columns o sht' leads)) with L in K1, K2, K3. change (snd (columns o sht' leads)) with R in K1, K2, K3. fold hcm in K1, K2, K3.
  set (pivs := nth_error (rows_dec (map (to_row hcm) rr))) in *.
  assert (HD : ForallOrdPairs (fun a b => lt b a) R) by exact (R_dec o (ck_o c CK) sht' leads B1 B2).
  assert (HR : forall m, In m R -> length m = nv) by exact (R_len o sht' leads B2).
  assert (Rin : forall m, In m R -> ~ In m leads) by (intros m Hm; apply (R_in o sht' leads) in Hm; apply Hm).
  assert (Psp : forall u, pset_of pivs u -> lspan nv p (multiple nv (pfs (map e_pol els))) (phi hcm u)).
  { intros u (j & r & Ej & ->). unfold pivs in Ej. apply nth_error_In in Ej. apply (Permutation_in _ (sort_perm _ _)) in Ej. apply in_map_iff in Ej as (f & <- & Hf). destruct (B8 f Hf) as [(e & w & He & Lw & ->) Hm].
    eapply lspan_ext; [apply (ideal_mul nv p (pfs (map e_pol els)) w (cf (e_pol e)) Lw); apply ideal_gen; exists (e_pol e); split; [apply in_map; exact He|reflexivity]|]. intros m Lm0. rewrite <- (row_cf c els e w HE He Lw m Lm0). apply (phi_to_row o); [exact HN|]. intros t Ht. apply Hin. apply Hm. exact Ht. }
  apply okl_rmap. intros f Hf. destruct (HT f Hf) as (F1 & F2 & F3). assert (Hin' : forall t, In t f -> In (snd t) hcm) by (intros t Ht; apply Hin, B3, ShtIn; exists f, t; auto).
  assert (P2 : 2 <= p) by lia. unfold nf_row.
  destruct (scatter_ok p (length hcm) (to_row hcm f) P2) as (dr & E1 & L1 & V1 & D1).
  { pose proof (sp_nodup nv lt p MO f (HT f Hf)) as ND. clear - ND Hin'. induction f as [|t f IH]; [constructor|]. cbn [to_row map fst]. cbn [map] in ND. inversion ND; subst. constructor.
    + intros K. change (map _ (map _ f)) with (map fst (to_row hcm f)) in K. apply in_map_iff in K as ((q & x) & E & K). unfold to_row in K. apply in_map_iff in K as (s & E' & Hs). cbn in E. injection E' as E1 E2. apply H1. rewrite E in E1. apply pos_inj in E1; [|apply Hin'; right; exact Hs|apply Hin'; left; reflexivity]. rewrite <- E1. apply in_map. exact Hs.
    + apply IH; [intros s Hs; apply Hin'; right; exact Hs|assumption]. }
  { intros t Ht. unfold to_row in Ht. apply in_map_iff in Ht as (s & <- & Hs). cbn [snd]. destruct (F2 s Hs). lia. }
  { intros t Ht. unfold to_row in Ht. apply in_map_iff in Ht as (s & <- & Hs). cbn [fst]. apply pos_lt. auto. }
  rewrite E1. cbn [of_opt rbind].
  destruct (reduce_known_ok (c_k c) p (length hcm) (length L) 0 pivs dr (class_kern _ p (ck_k c CK)) (columns_room _ p _ Ef) K3) as (dr' & oo & E2 & L2 & B2' & Z2 & ZP & SP & Ho); [lia|exact L1|exact D1|intros; lia|intros j Hj _; apply K2; lia|].
  unfold p in E2. rewrite E2. cbn [of_opt rbind snd].
  (* the combination of rows, as polynomials *)
  assert (Id : forall h : list (Z * mono), (forall m, phi hcm (dv dr') m = cf h m) -> ideal nv p (pfs (map e_pol els)) (fun u => cf f u - cf h u)).
  { intros h Eh. eapply lspan_ext; [eapply (phi_span o p hcm); [exact Psp|exact SP]|]. intros m _. rewrite <- Eh, <- (phi_to_row o hcm HN f m Hin'). unfold phi. destruct (mem m hcm); [rewrite V1; reflexivity|reflexivity]. }
  destruct oo as [r|].
  - destruct Ho as (_ & Cr & Vr & Tr). destruct (of_row_ok o hcm r) as (h & Eh & Fh); [intros t Ht; apply Tr; exact Ht|]. rewrite Eh. cbn [okl]. split; [|split].
    + apply Id. intros m. rewrite <- (phi_of_row o hcm HN r h m Fh). unfold phi. destruct (mem m hcm); [symmetry; apply Vr|reflexivity].
    + intros t i g Ht Hi Eg Hd. destruct (F2_in_r _ _ _ _ Fh Ht) as (s & Hs & _ & Es). destruct (Tr s Hs) as ((Hl & _) & _ & _). unfold hcm in Es. rewrite nth_error_app2 in Es by exact Hl. apply nth_error_In in Es. pose proof (Rin _ Es) as Nl. assert (Is : In (snd t) sht') by (apply (R_in o sht' leads) in Es; apply Es).
      destruct (B10 _ Is) as [Q|[[]|Q]]; [exact (Nl Q)|]. apply Q. exists i, g. auto.
    + apply (row_sorted nv lt p L R r h HD HR Cr); [intros t Ht; apply Tr; exact Ht|exact Fh].
  - cbn [okl]. split; [|split; [intros t i g []|left; reflexivity]]. apply Id. intros m. cbn [cf]. unfold phi. destruct (mem m hcm); [apply Ho|reflexivity].
Qed.
End Nf.
