(** The final reduction of the saturation (reduce_basis): the same result as that of F4. *)
From Coq Require Import ZArith NArith Arith List Bool Lia Permutation Sorted Znumtheory.
From Verif Require Import LinSpec MonoSpec MonoModel MonoSpecProofs MonoCmpProofs GbSpec GbProofs GbIdeal LaModel LaSpec LaProofs LaRowProofs LaSysProofs LaProps F4Model UpdProofs F4Rows SymbProofs SelProofs MatProofs RoundProofs FinalProofs SatModel SatKer QuotProofs.
Import ListNotations.
Open Scope Z_scope.

(** the list of leading monomials is only accumulated *)
Lemma symb_acc els lmps skip oes x fuel : forall i sht l rr s l' rr', symb fuel els lmps skip oes i sht l rr = Ok (s, l', rr') ->
  symb fuel els lmps skip oes i sht (l ++ x) rr = Ok (s, l' ++ x, rr').
Proof.
  induction fuel as [|fuel IH]; intros i sht l rr s l' rr' H; cbn [symb] in *; (destruct (nth_error sht i) as [m|]; [|injection H as <- <- <-; reflexivity]); [discriminate|].
  destruct (_ && _); [apply IH; exact H|]. destruct (find_red els lmps m) as [[g|]| | |]; cbn [rbind] in *; try discriminate; [|apply IH; exact H].
  destruct (row_at els m g) as [r| | |]; cbn [rbind] in *; try discriminate. apply (IH _ _ (m :: l)). exact H.
Qed.

Lemma keep_min_in l : forall kept f, In f (keep_min kept l) -> In f l.
Proof.
  induction l as [|g l IH]; intros kept f H; cbn [keep_min] in H; [exact H|]. destruct (covered kept (lmono g)); [right; apply (IH kept); exact H|]. destruct H as [<-|H]; [left; reflexivity|right; apply (IH _ _ H)].
Qed.
Lemma keep_min_fop (P : list (Z * mono) -> list (Z * mono) -> Prop) l : forall kept, ForallOrdPairs P l -> ForallOrdPairs P (keep_min kept l).
Proof.
  induction l as [|g l IH]; intros kept H; cbn [keep_min]; [constructor|]. inversion H as [|? ? H1 H2]; subst. destruct (covered kept (lmono g)); [apply IH; exact H2|]. constructor; [|apply IH; exact H2].
  rewrite Forall_forall in *. intros f Hf. apply H1. apply (keep_min_in _ _ _ Hf).
Qed.
Lemma covered_in nv kept m : length m = nv -> (forall l, In l kept -> length l = nv) -> covered kept m = true <-> exists l, In l kept /\ mdvd l m.
Proof.
  intros Hm HK. unfold covered. rewrite existsb_exists. split; intros (l & H1 & H2); exists l; split; auto; apply (mdvdb_iff l m); auto; (transitivity nv; [apply HK; exact H1|symmetry; exact Hm]).
Qed.
Lemma keep_min_spec nv l : forall kept, (forall f, In f l -> length (lmono f) = nv) -> (forall m, In m kept -> length m = nv) ->
  (forall f, In f (keep_min kept l) -> forall m, In m kept -> ~ mdvd m (lmono f)) /\ ForallOrdPairs (fun f g => ~ mdvd (lmono f) (lmono g)) (keep_min kept l) /\
  (forall f, In f l -> exists m, mdvd m (lmono f) /\ (In m kept \/ exists g, In g (keep_min kept l) /\ lmono g = m)).
Proof.
  induction l as [|g l IH]; intros kept HL HK; cbn [keep_min]; [split; [intros f []|split; [constructor|intros f []]]|].
  assert (Lg : length (lmono g) = nv) by (apply HL; left; reflexivity). assert (HL' : forall f, In f l -> length (lmono f) = nv) by (intros f Hf; apply HL; right; exact Hf).
  destruct (covered kept (lmono g)) eqn:E.
  - destruct (IH kept HL' HK) as (I1 & I2 & I3). split; [exact I1|]. split; [exact I2|]. intros f [<-|Hf]; [|apply I3; exact Hf]. apply (covered_in nv) in E as (m & Hm & Hd); auto. exists m. auto.
  - destruct (IH (lmono g :: kept) HL') as (I1 & I2 & I3); [intros m [<-|Hm]; auto|]. assert (Ng : forall m, In m kept -> ~ mdvd m (lmono g)).
    { intros m Hm Hd. assert (K : covered kept (lmono g) = true) by (apply (covered_in nv); auto; exists m; auto). congruence. }
    split; [intros f [<-|Hf] m Hm; [apply Ng; exact Hm|apply (I1 f Hf m); right; exact Hm]|]. split.
    + constructor; [|exact I2]. apply Forall_forall. intros f Hf. apply (I1 f Hf). left. reflexivity.
    + intros f [<-|Hf]; [exists (lmono g); split; [apply mdvd_refl|right; exists g; split; [left; reflexivity|reflexivity]]|]. destruct (I3 f Hf) as (m & Hd & Hc). exists m. split; [exact Hd|]. destruct Hc as [[Eg|Hm]|(h & Hh & Eh)].
      * right. exists g. split; [left; reflexivity|exact Eg].
      * left. exact Hm.
      * right. exists h. split; [right; exact Hh|exact Eh].
Qed.

Section Red.
Variable c : config.
Hypothesis CK : cfg_ok c.
Let o := c_o c.
Let nv := o_nv o.
Let lt := o_lt o.
Let p := c_p c.
Let MO : mono_order nv lt := o_lt_order o.
Let Hp : 1 < p := cfg_p c CK.

Lemma mulp_one (f : list (Z * mono)) : (forall t, In t f -> length (snd t) = nv) -> mulp (mone nv) f = f.
Proof. intros H. unfold mulp. rewrite <- (map_id f) at 2. apply map_ext_in. intros [a m] Hm. cbn [fst snd]. f_equal. apply mmul_one_l. apply (H (a, m) Hm). Qed.

Theorem reduce_basis_ok els K fuel out : els_ok nv lt p els -> (forall i, In i K -> (i < length els)%nat) -> NoDup K -> (forall i j, In i K -> In j K -> i <> j -> ~ mdvd (Lm els i) (Lm els j)) ->
  (forall i, (i < length els)%nat -> exists r, In r K /\ mdvd (Lm els r) (Lm els i)) ->
  reduce_basis c fuel els K = Ok out -> final_spec c (map e_pol els) (kpolys els K) out.
Proof.
  intros HE HK ND Hmin Hdom H. set (tr := kpolys els K). assert (Trm : forall f, In f tr -> exists e i, In i K /\ nth_error els i = Some e /\ In e els /\ f = e_pol e).
  { intros f Hf. apply in_map_iff in Hf as (i & <- & Hi). pose proof (HK i Hi) as Li. destruct (nth_error els i) as [e|] eqn:E; [|apply nth_error_None in E; lia]. exists e, i. rewrite (nth_error_nth _ _ dd E). split; [exact Hi|]. split; [exact E|]. split; [eapply nth_error_In; eassumption|reflexivity]. }
  assert (Trp : forall f, In f tr -> mpoly nv lt p f) by (intros f Hf; destruct (Trm f Hf) as (e & i & _ & _ & He & ->); apply HE; exact He).
  assert (Lds : NoDup (map lmono tr)).
  { unfold tr, kpolys. rewrite map_map. assert (I0 : forall i j, In i K -> In j K -> Lm els i = Lm els j -> i = j) by (intros i j Hi Hj E; destruct (Nat.eq_dec i j) as [|N]; [assumption|]; exfalso; apply (Hmin i j Hi Hj N); rewrite E; apply mdvd_refl).
    clear - ND I0. induction K as [|i K IH]; cbn [map]; [constructor|]. inversion ND; subst. constructor; [|apply IH; auto; intros; apply I0; auto; right; assumption]. intros Hin. apply in_map_iff in Hin as (j & E & Hj). apply H1. rewrite <- (I0 j i); auto; [right; exact Hj|left; reflexivity]. }
  set (sht := sht_rows [] tr). set (skip := map lmono tr).
  assert (ShtIn : forall m, In m sht <-> exists rw (t : Z * mono), In rw tr /\ In t rw /\ snd t = m) by (intros m; unfold sht; rewrite sht_rows_in; cbn; intuition).
  assert (SkipIn : forall m, In m skip -> In m sht).
  { intros m Hm. apply in_map_iff in Hm as (f & <- & Hf). destruct (mpoly_lm_in nv lt p f (Trp f Hf)) as (t & Ht & E). apply ShtIn. exists f, t. auto. }
  assert (ShtLen : forall m, In m sht -> length m = nv).
  { intros m Hm. apply ShtIn in Hm as (f & t & Hf & Ht & <-). apply (mpoly_terms nv lt p f t (Trp f Hf) Ht). }
  assert (SkipNth : forall m, In m skip -> exists j, (j < length sht)%nat /\ nth_error sht j = Some m).
  { intros m Hm. apply SkipIn in Hm. apply In_nth_error in Hm as (j & Hj). exists j. split; [apply nth_error_Some; congruence|exact Hj]. }
  assert (SI0 : SI nv els K skip (length sht) tr 0 sht skip tr).
  { constructor.
    - apply sht_rows_nd. constructor.
    - exact ShtLen.
    - exact SkipNth.
    - exact Lds.
    - intros m Hm. destruct (SkipNth m Hm) as (j & Lj & Hj). exists j. auto.
    - apply Permutation_refl.
    - intros r Hr. destruct (Trm r Hr) as (e & i & _ & _ & He & ->). split; [exists e, (mone nv); split; [exact He|]; split; [apply mone_length|]; symmetry; apply mulp_one; intros t Ht; apply (mpoly_terms nv lt p _ t (HE e He) Ht)|]. intros t Ht. apply ShtIn. exists (e_pol e), t. auto.
    - exists []. split; [symmetry; apply app_nil_r|]. intros x [].
    - intros j m Hj. lia. }
  destruct (closure_join nv els K sht) as (C & C1 & C2 & C3); [intros m Hm'; apply (closure_exists nv lt p MO); auto|].
  unfold reduce_basis in H. rewrite (kpolys_ok c els K HK) in H. cbn [rbind] in H. fold tr sht skip in H.
  destruct (symb fuel els K skip (length sht) 0 sht [] tr) as [[[sht' leads0] rr]| | |] eqn:ES; cbn [rbind] in H; try discriminate.
  pose proof (symb_acc _ _ _ _ skip _ _ _ _ _ _ _ _ ES) as ES2. cbn [app] in ES2.
  pose proof (symb_ok nv lt p MO els K HE HK skip (length sht) tr C C2 fuel 0 sht skip tr SI0 C1) as SO. rewrite ES2 in SO. set (leads := leads0 ++ skip) in *. clearbody leads. clear ES ES2 leads0.
  destruct SO as (B1 & B2 & B3 & B4 & B5 & B6 & B7 & B8 & _ & B10).
  set (hcm := msort (c_o c) sht') in *. assert (HPm : Permutation hcm sht') by apply msort_perm.
  assert (HN : NoDup hcm) by (eapply Permutation_NoDup; [symmetry; exact HPm|exact B1]). assert (Hin : forall m, In m hcm <-> In m sht') by (intros m; split; apply Permutation_in; [exact HPm|symmetry; exact HPm]).
  assert (HL : forall m, In m hcm -> length m = nv) by (intros m Hm; apply B2, Hin; exact Hm). assert (HD : decreasing o hcm) by (apply (msort_dec o (ck_o c CK)); assumption).
  destruct (cols_fit (c_k c) (c_p c) (length hcm)) eqn:Ef; cbn [when rbind] in H; [|discriminate]. apply cols_fit_ok in Ef.
  assert (Rrp : forall r, In r rr -> mpoly nv lt p r) by (intros r Hr; eapply mrow_mpoly; [exact MO|exact HE|apply (B8 r Hr)]).
  assert (Rrin : forall r, In r rr -> forall t, In t r -> In (snd t) hcm) by (intros r Hr t Ht; apply Hin; apply (B8 r Hr); exact Ht).
  set (rows := map (to_row hcm) rr) in *.
  assert (LmIn : forall f, In f rr -> In (lmono f) hcm) by (intros f Hf; destruct (mpoly_lm_in nv lt p f (Rrp f Hf)) as (t & Ht & <-); apply (Rrin f Hf t Ht)).
  assert (Kn : forall j r, known rows j = Some r -> exists f, In f rr /\ r = to_row hcm f /\ j = pos (lmono f) hcm).
  { intros j r H0. unfold known in H0. apply find_some in H0 as [H1 H2]. apply Nat.eqb_eq in H2. apply in_map_iff in H1 as (f & <- & Hf). exists f. split; [exact Hf|]. split; [reflexivity|]. rewrite <- H2. apply (row_piv c hcm f HN HL HD (Rrp f Hf) (Rrin f Hf)). }
  assert (Kn2 : forall f, In f rr -> known rows (pos (lmono f) hcm) <> None).
  { intros f Hf. unfold known. intros K0. pose proof (find_none _ _ K0 (to_row hcm f) (in_map _ _ _ Hf)) as K1. cbv beta in K1. destruct (row_piv c hcm f HN HL HD (Rrp f Hf) (Rrin f Hf)) as [_ E]. rewrite E, Nat.eqb_refl in K1. discriminate. }
  assert (KP : pivots_ok p (length hcm) (known rows)).
  { intros j r H0. destruct (Kn j r H0) as (f & Hf & -> & ->). apply (row_piv c hcm f HN HL HD (Rrp f Hf) (Rrin f Hf)). }
  destruct (interreduce_ok (c_k c) p 0 (length hcm) (class_kern _ p (ck_k c CK)) (columns_room _ p _ Ef) (length hcm) (known rows)) as (l & Q & El & Q1 & Q2 & Q3 & Q4 & _ & Q6); [lia|exact KP| |intros; lia|].
  { intros j r Hj E. exfalso. destruct (KP j r E) as (_ & _ & HLt & r' & -> & _). specialize (HLt (j, 1) (or_introl eq_refl)). cbn in HLt. lia. }
  unfold p in El. rewrite El in H. cbn [of_opt rbind] in H.
  assert (Hh : forall j r, Q j = Some r -> hcol r = j) by (intros j r E; destruct (Q1 j r E) as (_ & _ & _ & r' & -> & _); reflexivity).
  destruct (rows_desc_sorted o 0 Q (length hcm) Hh) as [S1 S2]. rewrite <- Q6 in S1, S2.
  destruct (rmap (of_row hcm) l) as [fs| | |] eqn:Er; cbn [rbind] in H; try discriminate. injection H as <-.
  set (nr := fun (r : list (nat * Z)) (f : list (Z * mono)) => Forall2 (fun t s => snd t = fst s /\ nth_error hcm (fst t) = Some (snd s)) r f).
  assert (Fo : Forall2 nr l fs).
  { apply (rmap_ok _ _ _ _ Er). intros r f Hr E. destruct (S2 r Hr) as [Eq _]. destruct (Q1 _ _ Eq) as (_ & _ & HLt & _). destruct (of_row_ok o hcm r) as (f' & E' & F'); [exact HLt|]. rewrite E in E'. injection E' as <-. exact F'. }
  (* the columns with a pivot are those of the leads *)
  assert (QLead : forall m, In m leads -> In m hcm /\ Q (pos m hcm) <> None).
  { intros m Hm. apply (Permutation_in _ (Permutation_sym B7)) in Hm. apply in_map_iff in Hm as (f & <- & Hf). split; [apply LmIn; exact Hf|]. rewrite <- Q3. apply Kn2. exact Hf. }
  assert (Out : forall r f, In r l -> nr r f -> mpoly nv lt p f /\ nth_error hcm (hcol r) = Some (lmono f) /\ ideal nv p (pfs (map e_pol els)) (cf f) /\ In (lmono f) leads /\
     forall t, In t f -> snd t = lmono f \/ forall g, In g tr -> ~ mdvd (lmono g) (snd t)).
  { intros r f Hr F. destruct (S2 r Hr) as [Eq _]. destruct (Q2 (hcol r) r ltac:(lia) Eq) as (Cr & Clean). destruct (row_poly c hcm r f (hcol r) HN HL HD Cr (Q1 _ _ Eq) F) as (M1 & M2 & M3). split; [exact M1|]. split; [exact M2|]. split; [|split].
    - assert (L0 : lspan nv p (pfs rr) (cf f)).
      { assert (Sp : span p (pset_of (known rows)) (rv r)) by (apply Q4; apply span_in; exists (hcol r), r; auto).
        eapply lspan_ext; [eapply (phi_span o p hcm); [|exact Sp]|intros m _; symmetry; apply (phi_of_row o); [exact HN|exact F]]. intros u (j & x & Hj & ->).
        destruct (Kn j x Hj) as (g & Hg & -> & _). eapply lspan_ext; [apply ls_in; exists g; split; [exact Hg|reflexivity]|]. intros m _. apply (phi_to_row o); [exact HN|apply Rrin; exact Hg]. }
      eapply lspan_mono; [|exact L0]. intros h (g & Hg & ->).
      destruct (B8 g Hg) as [(e & u & He & Lu & ->) _]. eapply lspan_ext; [apply ideal_mul; [exact Lu|apply ideal_gen; exists (e_pol e); split; [apply in_map; exact He|reflexivity]]|]. intros m Hm. apply (row_cf c els e u HE He Lu m Hm).
    - assert (N1 : known rows (hcol r) <> None) by (rewrite Q3; congruence). destruct (known rows (hcol r)) as [x|] eqn:Ek; [|congruence]. destruct (Kn _ _ Ek) as (g & Hg & _ & Ej). rewrite Ej in M2. assert (E0 : Some (lmono g) = Some (lmono f)) by (etransitivity; [symmetry; apply (pos_nth _ _ (LmIn g Hg))|exact M2]). injection E0 as <-. apply (Permutation_in _ B7). apply in_map. exact Hg.
    - intros t Ht. destruct (M3 t Ht) as (j & Ej & Hj & Nz). destruct Hj as [->|Hj]; [left; congruence|]. right. intros g Hg Hd. pose proof (nth_error_In _ _ Ej) as Ht'. apply Hin in Ht'.
      assert (Ps : pos (snd t) hcm = j) by (apply nth_pos; assumption).
      assert (NL : ~ In (snd t) leads) by (intros K0; apply Nz; apply Clean; [lia|]; rewrite <- Ps; apply QLead; exact K0).
      destruct (B10 _ Ht') as [Q0|[Q0|Q0]]; [exact (NL Q0)|apply NL, B5; exact Q0|].
      apply Q0. destruct (Trm g Hg) as (e & i & Hi & Ee & _ & ->). exists i, e. auto. }
  assert (FsOut : forall f, In f fs -> exists r, In r l /\ nr r f) by (intros f Hf; destruct (F2_in_r _ _ _ _ Fo Hf) as (r & Hr & F0); exists r; auto).
  assert (Heads : Forall2 (fun r f => nth_error hcm (hcol r) = Some (lmono f)) l fs) by (eapply F2_imp; [|exact Fo]; intros r f Hr F0; apply (Out r f Hr F0)).
  assert (Inc : ForallOrdPairs (fun f g => lt (lmono f) (lmono g)) fs).
  { clear - Heads S1 HD HN HL. induction Heads as [|r f rs fs H HF IH]; constructor; [|apply IH; inversion S1; assumption]. apply Forall_forall. intros g Hg. destruct (F2_in_r _ _ _ _ HF Hg) as (s & Hs & E). inversion S1 as [|? ? T1 T2]; subst. rewrite Forall_forall in T1. specialize (T1 s Hs). apply (FOP_nth _ _ HD (hcol s) (hcol r)); auto. }
  assert (Lead : forall m, In m leads -> exists f, In f fs /\ lmono f = m).
  { intros m Hm. destruct (QLead m Hm) as [Hc HQ]. destruct (Q (pos m hcm)) as [r|] eqn:E; [|congruence]. assert (Hr : In r l) by (rewrite Q6; apply rows_desc_in; exists (pos m hcm); split; [pose proof (pos_lt m hcm Hc); lia|exact E]).
    destruct (F2_in_l _ _ _ _ Heads Hr) as (f & Hf & Ef'). exists f. split; [exact Hf|]. rewrite (Hh _ _ E) in Ef'. assert (E0 : Some m = Some (lmono f)) by (etransitivity; [symmetry; apply (pos_nth _ _ Hc)|exact Ef']). congruence. }
  assert (LenFs : forall f, In f fs -> length (lmono f) = nv) by (intros f Hf; destruct (FsOut f Hf) as (r & Hr & F0); apply (mpoly_lm nv lt p f); apply (Out r f Hr F0)).
  destruct (keep_min_spec nv fs [] LenFs) as (_ & KM2 & KM3); [intros m []|]. set (out := keep_min [] fs) in *.
  assert (OutFs : forall f, In f out -> In f fs) by (intros f Hf; apply (keep_min_in _ _ _ Hf)).
  pose proof (keep_min_fop _ _ [] Inc) as OInc. fold out in OInc.
  change (ForallOrdPairs (fun f g => ~ mdvd (lmono f) (lmono g)) out) in KM2. change (forall f, In f fs -> exists m : mono, mdvd m (lmono f) /\ (In m [] \/ exists g, In g out /\ lmono g = m)) in KM3. clearbody out.
  (* every lead is a multiple of the lead of an element of tr *)
  assert (DivT : forall m, In m leads -> length m = nv /\ exists g, In g tr /\ mdvd (lmono g) m).
  { intros m Hm. split; [apply B2, B6; exact Hm|]. apply (Permutation_in _ (Permutation_sym B7)) in Hm. apply in_map_iff in Hm as (f & <- & Hf). destruct (B8 f Hf) as [(e & u & He & Lu & ->) _]. apply In_nth_error in He as (i & Hi). destruct (Hdom i) as (k & Hk & Hd); [apply nth_error_Some; congruence|].
    exists (e_pol (nth k els dd)). split; [apply in_map_iff; exists k; auto|]. rewrite lmono_mulp by (destruct (HE e (nth_error_In _ _ Hi)) as ((K0 & _) & _); exact K0). rewrite (Lm_nth _ _ _ Hi) in Hd. eapply mdvd_trans; [exact Hd|]. fold (e_lm e).
    apply mdvd_mmul_l. transitivity nv; [apply (mpoly_lm nv lt p _ (HE e (nth_error_In _ _ Hi)))|symmetry; exact Lu]. }
  assert (MinT : forall f g, In f tr -> In g tr -> mdvd (lmono f) (lmono g) -> lmono f = lmono g).
  { intros f g Hf Hg Hd. apply in_map_iff in Hf as (i & <- & Hi). apply in_map_iff in Hg as (j & <- & Hj). destruct (Nat.eq_dec i j) as [->|N]; [reflexivity|]. exfalso. apply (Hmin i j Hi Hj N). exact Hd. }
  assert (Up : forall g, In g tr -> exists h, In h out /\ lmono h = lmono g).
  { intros g Hg. destruct (Lead (lmono g)) as (f & Hf & E); [apply B5; apply in_map; exact Hg|]. destruct (KM3 f Hf) as (m & Hd & [[]|(h & Hh0 & Em)]). exists h. split; [exact Hh0|]. rewrite E, <- Em in Hd.
    destruct (FsOut h (OutFs h Hh0)) as (r & Hr & F0). destruct (Out r h Hr F0) as (_ & _ & _ & Il & _). destruct (DivT _ Il) as (Ln & g' & Hg' & Hd'). assert (E1 : lmono g' = lmono g) by (apply MinT; auto; eapply mdvd_trans; eassumption). rewrite E1 in Hd'.
    apply mdvd_antisym; [|exact Hd|exact Hd']. transitivity nv; [exact Ln|]. symmetry. apply (mpoly_lm nv lt p g (Trp g Hg)). }
  assert (Down : forall f, In f out -> exists g, In g tr /\ lmono g = lmono f).
  { intros f Hf. destruct (FsOut f (OutFs f Hf)) as (r & Hr & F0). destruct (Out r f Hr F0) as (_ & _ & _ & Il & _). destruct (DivT _ Il) as (Ln & g & Hg & Hd). exists g. split; [exact Hg|]. destruct (Up g Hg) as (h & Hh0 & E). rewrite <- E in Hd |- *.
    destruct (ForallOrdPairs_In KM2 h f Hh0 Hf) as [->|[K0|K0]]; [reflexivity|contradiction|]. destruct (ForallOrdPairs_In OInc h f Hh0 Hf) as [->|[K1|K1]]; [reflexivity| |].
    - (* h before f in the order of the leads *) exfalso.
      assert (P0 : ForallOrdPairs (fun f g => ~ mdvd (lmono f) (lmono g) /\ lt (lmono f) (lmono g)) out).
      { clear - KM2 OInc. induction KM2 as [|a l H1 H2 IH]; constructor; [|apply IH; inversion OInc; assumption]. inversion OInc; subst. rewrite Forall_forall in *. intros x Hx. split; [apply H1|apply H3]; exact Hx. }
      destruct (ForallOrdPairs_In P0 h f Hh0 Hf) as [->|[(K2 & _)|(_ & K2)]]; [apply (lt_irr nv lt MO _ K1)|contradiction|]. apply (lt_irr nv lt MO (lmono h)). apply (lt_tr nv lt MO _ (lmono f)); auto.
    - exfalso. destruct (dvd_le nv lt MO (lmono h) (lmono f)) as [E2|E2]; [apply LenFs, OutFs; exact Hh0|exact Ln|exact Hd|rewrite E2 in K1; apply (lt_irr nv lt MO _ K1)|]. apply (lt_irr nv lt MO (lmono h)). apply (lt_tr nv lt MO _ (lmono f)); auto. }
  constructor; [| | | |exact OInc].
  - intros f Hf. destruct (FsOut f (OutFs f Hf)) as (r & Hr & F0). apply (Out r f Hr F0).
  - intros f Hf. destruct (FsOut f (OutFs f Hf)) as (r & Hr & F0). apply (Out r f Hr F0).
  - fold tr. apply NoDup_Permutation; [|exact Lds|].
    + clear - OInc MO. induction OInc as [|f l H1 H2 IH]; cbn [map]; constructor; [|exact IH]. intros Hc. apply in_map_iff in Hc as (g & E & Hg). rewrite Forall_forall in H1. specialize (H1 g Hg). rewrite E in H1. apply (lt_irr nv lt MO _ H1).
    + intros m. split; intros Hm; apply in_map_iff in Hm as (f & <- & Hf).
      * destruct (Down f Hf) as (g & Hg & <-). apply in_map. exact Hg.
      * destruct (Up f Hf) as (g & Hg & <-). apply in_map. exact Hg.
  - intros f t Hf Ht. destruct (FsOut f (OutFs f Hf)) as (r & Hr & F0). destruct (Out r f Hr F0) as (_ & _ & _ & _ & R0). apply R0. exact Ht.
Qed.
End Red.
