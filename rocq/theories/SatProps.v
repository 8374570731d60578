(** Property C72: saturation of an ideal by a polynomial over a prime field (option -S). *)
From Coq Require Import ZArith NArith Arith List Bool Lia Permutation Sorted Znumtheory.
From Verif Require Import UpdProps LinSpec MonoSpec MonoModel MonoSpecProofs MonoCmpProofs GbSpec GbProofs GbIdeal LaModel LaSpec LaProofs LaRowProofs LaSysProofs LaProps F4Model UpdProofs F4Rows SymbProofs SelProofs MatProofs RoundProofs FinalProofs NfProofs F4Props ProbModel ProbProps SatModel SatSpec SatAlg SatLa SatKer SatRed QuotProofs SatProofs.
Import ListNotations.
Open Scope Z_scope.

(** What msolve.c l.3644-3720 lets pass and what is assumed of the parts of a run the input does not determine: the degree
    reverse lexicographic order in at least one variable, a prime above 2^16 (check_ff_bits) and below 2^31; rearrangements of
    rows, and values of rand() that are not negative. *)
Definition sat_setting (x : sconfig) : Prop :=
  cfg_ok (x_c x) /\ c_k (x_c x) = K31 /\ 2 ^ 16 < c_p (x_c x) /\ o_nev (c_o (x_c x)) = O /\ o_mo (c_o (x_c x)) = O /\ (0 < o_nv (c_o (x_c x)))%nat /\
  (forall n l, Permutation (x_perm x n l) l) /\ (forall n i j, random (x_evs x n i j)).

Lemma core_sat_ok x fuel F phi out how : let c := x_c x in let nv := o_nv (c_o c) in let lt := o_lt (c_o c) in let p := c_p c in
  sat_setting x -> Forall (sorted_poly nv lt p) F -> sorted_poly nv lt p phi -> core_f4sat x fuel F phi = Ok (out, how) ->
  (between nv p F phi out /\ groebner nv lt p (pfs out) /\ reduced_basis nv lt p out /\ (forall f, In f out -> mpoly nv lt p f) /\ ForallOrdPairs (fun f g => lt (lmono f) (lmono g)) out) /\
  (how = Some 1 -> is_saturation nv p F phi out).
Proof.
  intros c nv lt p (CK & CK31 & H16 & _ & _ & Hnv & Hperm & Hev) HF Hphi E. assert (H15 : 2 ^ 15 <= c_p (x_c x)) by lia. pose proof (phi_vars x phi Hphi) as PV. fold c nv in PV.
  destruct (normalize_all c CK F HF) as (F' & EF & MF & SF). unfold core_f4sat in E. fold c in E. fold p in E. fold p in EF. rewrite EF in E. cbn [rbind] in E. fold basis0 in E. destruct (update_room _ _ basis0 _ _) as [[b ps]| | |] eqn:E1; cbn [rbind] in E; try discriminate.
  apply update_room_ok in E1. pose proof (start_ok c F' MF) as ST. rewrite E1 in ST. cbn [okl fst snd] in ST.
  set (s0 := {| t_a := _; t_b := b; t_ps := ps; t_sat := _; t_test := _; t_next := _; t_nk := _; t_n := _ |}) in E. destruct (sat_main x fuel 0 s0) as [[s yes]| | |] eqn:E2; cbn [rbind] in E; try discriminate.
  assert (I0 : inv x F' phi s0).
  { exists F'. split; [apply mid_0; exact MF|]. split; [exact ST|]. cbn [s0 t_sat t_b]. intros r [<-|[]]. split; [apply mone_length|]. split; [exact Hphi|]. cbn [fst snd]. apply lspan_zero. intros m Hm. cbv beta. rewrite (pmul_one c) by exact Hm. rewrite Z.sub_diag. reflexivity. }
  destruct (main_ok x CK CK31 H15 Hperm Hev Hnv F' phi Hphi fuel 0 s0 s yes I0 E2) as ((H & HM & HI & HS) & Hd & HU).
  destruct (reduce_basis c fuel (b_el (t_b s)) (final_lmps (t_b s))) as [out0| | |] eqn:E3; cbn [rbind] in E; try discriminate. injection E as <- <-.
  destruct (final_lmps_spec nv (t_b s) (t_ps s) _ (fi_u _ _ _ _ HI) (fi_lo _ _ _ _ HI)) as (L1 & L2 & L3 & L4).
  assert (FS : final_spec c (map e_pol (b_el (t_b s))) (kpolys (b_el (t_b s)) (final_lmps (t_b s))) out0) by (apply (reduce_basis_ok c CK _ _ fuel out0 (fi_els _ _ _ _ HI) L1 L2 L4 L3 E3)).
  destruct (finish_ok c CK H (t_b s) (t_ps s) out0 HI Hd (proj1 HM) FS) as (G1 & G2 & G3 & G4 & G5). fold nv lt p in G1, G2, G3, G4, G5. destruct (G5 eq_refl) as (G6 & G7).
  destruct (mid_ideal x F' phi Hphi H HM) as (n & Hn). fold c nv p in Hn. pose proof HM as (_ & Hinc & _).
  assert (Low : forall f, ideal nv p (pfs F) f -> ideal nv p (pfs out0) f).
  { intros f Hf. apply G1. apply SF in Hf. eapply ideal_incl; [|exact Hf]. intros g (h & Hh & ->). apply ideal_gen. exists h. split; [apply Hinc; exact Hh|reflexivity]. }
  assert (Up : forall f, ideal nv p (pfs out0) f -> in_sat nv p F phi f) by (intros f Hf; exists n; apply SF; apply Hn; apply G1; exact Hf).
  split; [split; [split; [exact Low|exact Up]|]; auto|].
  intros Hy f Hf. split; [apply Up|]. intros (k & Hk). specialize (HU Hy). destruct (done_groebner c CK H (t_b s) (t_ps s) HI Hd) as (S1 & _). fold nv p in S1. apply G1. apply S1.
  apply (unit_colons nv p (pfs (polys (t_b s))) phi k f PV Hf HU). apply S1. apply G1. apply Low. exact Hk.
Qed.

(** Whatever the run did, the polynomials printed are the reduced Gröbner basis of an ideal between the ideal of the input and
    its saturation by the last polynomial: everything in the input ideal is in it, and each of its elements is taken into the
    input ideal by a power of that polynomial. *)
Theorem C72_sound : forall x fuel F phi out how, let c := x_c x in let nv := o_nv (c_o c) in let lt := o_lt (c_o c) in let p := c_p c in
  sat_setting x -> Forall (sorted_poly nv lt p) F -> sorted_poly nv lt p phi -> core_f4sat x fuel F phi = Ok (out, how) ->
  between nv p F phi out /\ groebner nv lt p (pfs out) /\ reduced_basis nv lt p out /\ (forall f, In f out -> mpoly nv lt p f) /\ ForallOrdPairs (fun f g => lt (lmono f) (lmono g)) out.
Proof. intros x fuel F phi out how c nv lt p HS HF Hphi E. apply (core_sat_ok x fuel F phi out how HS HF Hphi E). Qed.
Print Assumptions C72_sound.

(** It is the saturation if the run ended because the program's own test said so and the polynomial tested, the normal form of
    phi, had leading coefficient 1. *)
Theorem C72_saturated : forall x fuel F phi out, let c := x_c x in let nv := o_nv (c_o c) in let lt := o_lt (c_o c) in let p := c_p c in
  sat_setting x -> Forall (sorted_poly nv lt p) F -> sorted_poly nv lt p phi -> core_f4sat x fuel F phi = Ok (out, Some 1) -> is_saturation nv p F phi out.
Proof. intros x fuel F phi out c nv lt p HS HF Hphi E. apply (core_sat_ok x fuel F phi out _ HS HF Hphi E). reflexivity. Qed.
Print Assumptions C72_saturated.

(** If 1 is printed, the saturation is the whole ring: a power of phi lies in the input ideal. *)
Theorem C72_unit : forall x fuel F phi out how, let c := x_c x in let nv := o_nv (c_o c) in let lt := o_lt (c_o c) in let p := c_p c in
  sat_setting x -> Forall (sorted_poly nv lt p) F -> sorted_poly nv lt p phi -> core_f4sat x fuel F phi = Ok (out, how) ->
  In [(1, mone nv)] out -> is_saturation nv p F phi out /\ exists k, ideal nv p (pfs F) (pprods phi k (cf [(1, mone nv)])).
Proof.
  intros x fuel F phi out how c nv lt p HS HF Hphi E H1. destruct (core_sat_ok x fuel F phi out how HS HF Hphi E) as (((_ & Up) & _) & _). fold c nv p in Up.
  assert (I1 : ideal nv p (pfs out) (cf [(1, mone nv)])) by (apply ideal_gen; exists [(1, mone nv)]; auto). split; [|apply Up; exact I1].
  intros f Hf. split; [apply Up|]. intros _. eapply lspan_ext; [apply (pprod_ideal nv p (pfs out) f _ Hf I1)|]. intros m Hm. symmetry. apply (pprod_one nv f m Hf Hm).
Qed.
Print Assumptions C72_unit.

(** The answer of the run is unique if it is the saturation: two runs (other schedules, draws, presentations of the same ideal)
    that are both known to be complete print the same polynomials. *)
Theorem C72_same : forall x y fuel fuel' F F' phi out out' , let c := x_c x in let nv := o_nv (c_o c) in let lt := o_lt (c_o c) in let p := c_p c in
  sat_setting x -> sat_setting y -> c_o (x_c y) = c_o c -> c_p (x_c y) = p ->
  Forall (sorted_poly nv lt p) F -> Forall (sorted_poly nv lt p) F' -> same_ideal nv p (pfs F) (pfs F') -> sorted_poly nv lt p phi ->
  core_f4sat x fuel F phi = Ok (out, Some 1) -> core_f4sat y fuel' F' phi = Ok (out', Some 1) -> out = out'.
Proof.
  intros x y fuel fuel' F F' phi out out' c nv lt p HX HY Eo Ep HF HF' SI Hphi E1 E2.
  destruct (core_sat_ok x fuel F phi out _ HX HF Hphi E1) as ((_ & A1 & A2 & A3 & A4) & A5). specialize (A5 eq_refl). fold c nv lt p in A1, A2, A3, A4, A5.
  destruct (core_sat_ok y fuel' F' phi out' (Some 1) HY) as ((_ & B1 & B2 & B3 & B4) & B5); [rewrite Eo, Ep; exact HF'|rewrite Eo, Ep; exact Hphi|exact E2|]. specialize (B5 eq_refl). rewrite Eo, Ep in B1, B2, B3, B5. rewrite Eo in B4. fold nv lt in B1, B2, B3, B4, B5.
  pose proof HX as (CK & _). pose proof (cfg_p c CK) as Hp. fold p in Hp. pose proof (o_lt_order (c_o c)) as MO. fold nv lt in MO.
  assert (Same : forall f, in_sat nv p F phi f <-> in_sat nv p F' phi f) by (intros f; split; intros (k & Hk); exists k; apply SI; exact Hk).
  assert (V1 : forall f, mpoly nv lt p f -> in_vars nv f) by (intros f Mf t Ht; apply (mpoly_terms nv lt p f t Mf Ht)).
  assert (SO : same_ideal nv p (pfs out) (pfs out')).
  { apply same_ideal_intro; intros g (f & Hf & ->).
    - apply (B5 f (V1 f (A3 f Hf))). apply Same. apply (A5 f (V1 f (A3 f Hf))). apply ideal_gen. exists f. auto.
    - apply (A5 f (V1 f (B3 f Hf))). apply Same. apply (B5 f (V1 f (B3 f Hf))). apply ideal_gen. exists f. auto. }
  assert (GA : Forall (good nv lt) out) by (apply Forall_forall; intros f Hf; apply (mpoly_good nv lt p); apply A3; exact Hf). assert (GB : Forall (good nv lt) out') by (apply Forall_forall; intros f Hf; apply (mpoly_good nv lt p); apply B3; exact Hf).
  assert (Half : forall o1 o2 : list (list (Z * mono)), (forall f, In f o1 -> sorted_poly nv lt p f) -> (forall f, In f o2 -> sorted_poly nv lt p f) -> (forall g, In g o1 -> exists h, In h o2 /\ lm g = lm h /\ peq nv p (cf g) (cf h)) -> forall f, In f o1 -> In f o2).
  { intros o1 o2 S1 S2 H f Hf. destruct (H f Hf) as (g & Hg & _ & E). rewrite (sorted_poly_eq nv lt p MO Hp f g); auto. }
  apply (sorted_unique (fun f g => lt (lmono f) (lmono g)) (fun f => length (lmono f) = nv)).
  - intros a _ K. apply (lt_irr nv lt MO _ K).
  - intros a b d La Lb Ld K1 K2. apply (lt_tr nv lt MO _ (lmono b)); assumption.
  - intros a Ha. apply (mpoly_lm nv lt p). apply A3. exact Ha.
  - exact A4.
  - exact B4.
  - intros f. split; [apply Half|apply Half]; try (intros g Hg; apply A3; exact Hg); try (intros g Hg; apply B3; exact Hg).
    + apply (GbIdeal.reduced_unique nv lt p MO (P1 p Hp)); auto.
    + apply (GbIdeal.reduced_unique nv lt p MO (P1 p Hp)); auto. intros g. symmetry. apply SO.
Qed.
Print Assumptions C72_same.

(** * Runs *)
Lemma prime_65537 : prime 65537.
Proof.
  apply prime_alt. split; [lia|]. assert (H : forallb (fun m => negb (65537 mod m =? 0)) (map Z.of_nat (seq 2 255)) = true) by (vm_compute; reflexivity). rewrite forallb_forall in H.
  assert (K : forall m, 1 < m <= 256 -> ~ (m | 65537)).
  { intros m Hm (k & Hk). assert (Hin : In m (map Z.of_nat (seq 2 255))) by (apply in_map_iff; exists (Z.to_nat m); split; [lia|]; apply in_seq; lia). specialize (H m Hin). rewrite Hk, Z.mod_mul in H by lia. discriminate. }
  intros n Hn (k & Hk). destruct (Z_le_gt_dec n 256) as [L|L]; [apply (K n); [lia|exists k; exact Hk]|]. apply (K k); [nia|exists n; lia].
Qed.
Definition evs_ex (n i j : nat) : list (nat * (nat -> Z)) :=
  concat (map (fun k => map (fun t => (t, fun u => Z.of_nat ((k * k + 3 * t + 1) * (u + 1) + 7 * u + 1))) (seq 0 3)) (seq 0 60)).
Definition sx : sconfig := {| x_c := std_config ord2 K31 65537 20; x_perm := fun _ l => l; x_evs := evs_ex |}.
(** other draws, and the rows in the opposite order *)
Definition sy : sconfig := {| x_c := std_config ord2 K31 65537 1; x_perm := fun _ l => rev l; x_evs := fun n i j => rev (evs_ex n i j) |}.
Lemma evs_random n i j : random (evs_ex n i j).
Proof. intros e u He. apply in_concat in He as (l & Hl & He). apply in_map_iff in Hl as (k & <- & _). apply in_map_iff in He as (t & <- & _). cbn [snd]. lia. Qed.
Lemma sx_ok : sat_setting sx.
Proof.
  split; [apply std_config_ok; [unfold o_ok; cbn; lia|apply prime_65537|unfold in_class; lia|lia]|]. split; [reflexivity|]. split; [reflexivity|]. split; [reflexivity|]. split; [reflexivity|]. split; [cbn; lia|]. split; [intros n l; apply Permutation_refl|intros n i j; apply evs_random].
Qed.
Lemma sy_ok : sat_setting sy.
Proof.
  split; [apply std_config_ok; [unfold o_ok; cbn; lia|apply prime_65537|unfold in_class; lia|lia]|]. split; [reflexivity|]. split; [reflexivity|]. split; [reflexivity|]. split; [reflexivity|]. split; [cbn; lia|]. split; [intros n l; apply Permutation_sym, Permutation_rev|]. intros n i j e u He. apply (evs_random n i j e u). apply in_rev. exact He.
Qed.
(** (x - 1)^2 (x - 2), x y; phi = x - 1: y, x - 2 *)
Definition sat_F : list (list (Z * mono)) := [[(1, [3; 0]%N); (65533, [2; 0]%N); (5, [1; 0]%N); (65535, [0; 0]%N)]; [(1, [1; 1]%N)]].
Definition sat_phi : list (Z * mono) := [(1, [1; 0]%N); (65536, [0; 0]%N)].
Definition sat_out : list (list (Z * mono)) := [[(1, [0; 1]%N)]; [(1, [1; 0]%N); (65535, [0; 0]%N)]].
Lemma sat_F_ok : Forall (sorted_poly 2 (o_lt ord2) 65537) sat_F.
Proof. (constructor; [|constructor; [|constructor]]); apply (sortedb_ok ord2); try apply ord2_ok; try discriminate; vm_compute; reflexivity. Qed.
Lemma one_ok f : f <> [] -> sortedb ord2 65537 f = true -> sorted_poly 2 (o_lt ord2) 65537 f.
Proof. intros Hn H. apply (sortedb_ok ord2); [apply ord2_ok|exact Hn|exact H]. Qed.
Example C72_ex : sat_setting sx /\ sat_setting sy /\ Forall (sorted_poly 2 (o_lt ord2) 65537) sat_F /\ sorted_poly 2 (o_lt ord2) 65537 sat_phi /\
  core_f4sat sx 30 sat_F sat_phi = Ok (sat_out, Some 1) /\ core_f4sat sy 30 sat_F sat_phi = Ok (sat_out, Some 1).
Proof. split; [apply sx_ok|]. split; [apply sy_ok|]. split; [apply sat_F_ok|]. split; [apply one_ok; [discriminate|reflexivity]|]. split; vm_compute; reflexivity. Qed.
(** x^2, x y; phi = x: everything *)
Example C72_unit_ex : core_f4sat sx 30 [[(1, [2; 0]%N)]; [(1, [1; 1]%N)]] [(1, [1; 0]%N)] = Ok ([[(1, mone 2)]], None).
Proof. vm_compute. reflexivity. Qed.

(** * What is not true *)
(** products and congruence of explicit polynomials, by computation *)
Definition lmul (f g : list (Z * mono)) : list (Z * mono) := concat (map (fun t => map (fun s => (fst t * fst s, mmul (snd t) (snd s))) g) f).
Lemma lmul_vars nv f g : in_vars nv f -> in_vars nv g -> in_vars nv (lmul f g).
Proof. intros Hf Hg t Ht. apply in_concat in Ht as (l & Hl & Ht). apply in_map_iff in Hl as (a & <- & Ha). apply in_map_iff in Ht as (b & <- & Hb). cbn [snd]. rewrite mmul_length; [apply Hf; exact Ha|rewrite (Hf a Ha), (Hg b Hb); reflexivity]. Qed.
Lemma lmul_ok nv f g m : in_vars nv f -> in_vars nv g -> length m = nv -> pprod f (cf g) m = cf (lmul f g) m.
Proof.
  intros Hf Hg Hm. induction f as [|t f IH]; [reflexivity|]. unfold lmul. cbn [map concat]. rewrite cf_app. fold (lmul f g). rewrite <- IH by (intros s Hs; apply Hf; right; exact Hs). change (pprod (t :: f) (cf g) m) with (fst t * pmul (snd t) (cf g) m + pprod f (cf g) m). f_equal.
  rewrite <- (cf_mulp nv (snd t) g m) by (try apply Hf; try apply Hg; try exact Hm; left; reflexivity). clear. induction g as [|s g IH]; cbn [map mulp cf fst snd]; [ring|]. fold (mulp (snd t) g). destruct (mono_dec _ _); rewrite <- IH; ring.
Qed.
Definition ceqb (p : Z) (f g : list (Z * mono)) : bool := forallb (fun m => (cf f m - cf g m) mod p =? 0) (map snd (f ++ g)).
Lemma ceqb_ok nv p f g : 0 < p -> ceqb p f g = true -> peq nv p (cf f) (cf g).
Proof.
  intros Hp H m _. unfold ceqb in H. rewrite forallb_forall in H. destruct (in_dec mono_dec m (map snd (f ++ g))) as [Hm|Hm].
  - specialize (H m Hm). apply Z.eqb_eq in H. apply Z.mod_divide in H; [exact H|lia].
  - assert (Z0 : forall h : list (Z * mono), incl h (f ++ g) -> cf h m = 0).
    { intros h Hh. destruct (Z.eq_dec (cf h m) 0) as [E|E]; [exact E|]. exfalso. apply cf_nz in E as (t & Ht & <-). apply Hm. apply in_map. apply Hh. exact Ht. }
    rewrite (Z0 f), (Z0 g); [reflexivity|intros t Ht; apply in_or_app; right; exact Ht|intros t Ht; apply in_or_app; left; exact Ht].
Qed.
Lemma not_in (out : list (list (Z * mono))) f m : groebner 2 (o_lt ord2) 65537 (pfs out) -> (forall g, In g out -> mpoly 2 (o_lt ord2) 65537 g) ->
  is_lead 2 (o_lt ord2) 65537 f m -> existsb (fun g => mdvdb (lmono g) m) out = false -> ~ ideal 2 65537 (pfs out) f.
Proof.
  intros HG HM Hl Hd K. destruct (HG f m K Hl) as (g & l & (h & Hh & ->) & Hlg & Hdv). pose proof (o_lt_order ord2) as MO. pose proof (mpoly_lead 2 (o_lt ord2) 65537 MO ltac:(lia) h (HM h Hh)) as Hlh.
  rewrite (lead_unique 2 (o_lt ord2) 65537 MO _ _ _ Hlg Hlh) in Hdv. assert (T : existsb (fun g => mdvdb (lmono g) m) out = true); [|congruence]. apply existsb_exists. exists h. split; [exact Hh|]. apply mdvdb_iff; [|exact Hdv]. destruct Hl as (Lm1 & _). destruct Hlh as (Lh & _). rewrite Lh. symmetry. exact Lm1.
Qed.
(** The same ideal with phi = 3 x - 3 instead of x - 1, the same saturation: the program answers "already saturated" and prints
    y, (x - 1)(x - 2), which is not the saturation: x - 2 is missing. (The test puts phi into the basis without making it monic,
    as the linear algebra expects, and so tests x - 3 instead.) *)
Theorem C72_nonmonic_refuted : exists F phi out, Forall (sorted_poly 2 (o_lt ord2) 65537) F /\ sorted_poly 2 (o_lt ord2) 65537 phi /\
  core_f4sat sx 30 F phi = Ok (out, Some 3) /\ ~ is_saturation 2 65537 F phi out /\
  core_f4sat sx 30 F (map (fun t => ((fst t * 21846) mod 65537, snd t)) phi) = Ok (sat_out, Some 1).
Proof.
  exists sat_F, [(3, [1; 0]%N); (65534, [0; 0]%N)], [[(1, [0; 1]%N)]; [(1, [2; 0]%N); (65534, [1; 0]%N); (2, [0; 0]%N)]]. set (phi := [(3, [1; 0]%N); (65534, [0; 0]%N)]). set (out := [_; _]).
  assert (Hp : sorted_poly 2 (o_lt ord2) 65537 phi) by (apply one_ok; [discriminate|reflexivity]). assert (E : core_f4sat sx 30 sat_F phi = Ok (out, Some 3)) by (vm_compute; reflexivity).
  split; [apply sat_F_ok|]. split; [exact Hp|]. split; [exact E|]. split; [|vm_compute; reflexivity].
  destruct (C72_sound sx 30 sat_F phi out (Some 3) sx_ok sat_F_ok Hp E) as (_ & HG & _ & HM & _). intros K. set (f := [(1, [1; 0]%N); (65535, [0; 0]%N)]).
  assert (Mf : sorted_poly 2 (o_lt ord2) 65537 f) by (apply one_ok; [discriminate|reflexivity]).
  assert (Vf : in_vars 2 f) by (intros t [<-|[<-|[]]]; reflexivity). apply (not_in out (cf f) [1; 0]%N HG HM); [|reflexivity|].
  - apply (mpoly_lead 2 (o_lt ord2) 65537 (o_lt_order ord2) ltac:(lia) f). split; [exact Mf|]. exists [1; 0]%N, [(65535, [0; 0]%N)]. reflexivity.
  - apply (K f Vf). exists 2%nat. eapply ls_eq; [apply (lspan_scale 2 65537 _ 9); apply ideal_gen; exists (nth 0 sat_F []); split; [left; reflexivity|reflexivity]|].
    assert (Vp : in_vars 2 phi) by (intros t [<-|[<-|[]]]; reflexivity). apply (peq_trans 2 65537 _ (cf (lmul phi (lmul phi f)))).
    + apply (peq_trans 2 65537 _ (cf (map (fun t => (9 * fst t, snd t)) (nth 0 sat_F [])))); [|apply ceqb_ok; [lia|vm_compute; reflexivity]]. intros m _. cbn [nth sat_F map cf fst snd]. destruct (mono_dec _ _), (mono_dec _ _), (mono_dec _ _), (mono_dec _ _); match goal with |- eqp _ ?a ?b => replace a with b by ring end; reflexivity.
    + apply peq_sym. cbn [pprods]. intros m Hm. rewrite <- (lmul_ok 2 phi (lmul phi f) m Vp (lmul_vars 2 phi f Vp Vf) Hm). apply (pprod_peq 2 65537 phi _ _ Vp); [|exact Hm]. intros n Hn. rewrite (lmul_ok 2 phi f n Vp Vf Hn). reflexivity.
Qed.
Print Assumptions C72_nonmonic_refuted.

(** Input that is already a Gröbner basis: there are no pairs, the loop is not entered, and nothing is saturated at all.
    x y, phi = x: the output is x y, the saturation has y. *)
Theorem C72_nopairs_refuted : exists F phi, Forall (sorted_poly 2 (o_lt ord2) 65537) F /\ sorted_poly 2 (o_lt ord2) 65537 phi /\
  core_f4sat sx 30 F phi = Ok (F, None) /\ ~ is_saturation 2 65537 F phi F.
Proof.
  exists [[(1, [1; 1]%N)]], [(1, [1; 0]%N)]. set (phi := [(1, [1; 0]%N)]). set (F := [_]). assert (HF : Forall (sorted_poly 2 (o_lt ord2) 65537) F) by (constructor; [apply one_ok; [discriminate|reflexivity]|constructor]).
  assert (Hp : sorted_poly 2 (o_lt ord2) 65537 phi) by (apply one_ok; [discriminate|reflexivity]). assert (E : core_f4sat sx 30 F phi = Ok (F, None)) by (vm_compute; reflexivity).
  split; [exact HF|]. split; [exact Hp|]. split; [exact E|]. destruct (C72_sound sx 30 F phi F None sx_ok HF Hp E) as (_ & HG & _ & HM & _). intros K. set (f := [(1, [0; 1]%N)]).
  assert (Mf : sorted_poly 2 (o_lt ord2) 65537 f) by (apply one_ok; [discriminate|reflexivity]). assert (Vf : in_vars 2 f) by (intros t [<-|[]]; reflexivity). assert (Vp : in_vars 2 phi) by (intros t [<-|[]]; reflexivity).
  apply (not_in F (cf f) [0; 1]%N HG HM); [|reflexivity|].
  - apply (mpoly_lead 2 (o_lt ord2) 65537 (o_lt_order ord2) ltac:(lia) f). split; [exact Mf|]. exists [0; 1]%N, []. reflexivity.
  - apply (K f Vf). exists 1%nat. cbn [pprods]. eapply lspan_ext; [apply ideal_gen; exists [(1, [1; 1]%N)]; split; [left; reflexivity|reflexivity]|]. intros m Hm. rewrite (lmul_ok 2 phi f m Vp Vf Hm). reflexivity.
Qed.
Print Assumptions C72_nopairs_refuted.

(** Undefined behaviour: after a negative answer of the test the arrays of leading monomials are replaced by copies with as many
    entries as there are leading monomials at that time, but the recorded capacity is not lowered; the next leading monomials
    are written behind the end. x^4, y^3, x y^2; phi = x - 2 y *)
Definition evs_more (n i j : nat) : list (nat * (nat -> Z)) :=
  concat (map (fun k => map (fun t => (t, fun u => Z.of_nat ((k * k + 3 * t + 1) * (u + 1) + 7 * u + 1))) (seq 0 6)) (seq 0 150)).
Definition sz : sconfig := {| x_c := std_config ord2 K31 65537 20; x_perm := fun _ l => l; x_evs := evs_more |}.
Lemma sz_ok : sat_setting sz.
Proof.
  split; [apply sx_ok|]. split; [reflexivity|]. split; [reflexivity|]. split; [reflexivity|]. split; [reflexivity|]. split; [cbn; lia|]. split; [intros n l; apply Permutation_refl|].
  intros n i j e u He. apply in_concat in He as (l & Hl & He). apply in_map_iff in Hl as (k & <- & _). apply in_map_iff in He as (t & <- & _). cbn [snd]. lia.
Qed.
Definition over_F : list (list (Z * mono)) := [[(1, [4; 0]%N)]; [(1, [0; 3]%N)]; [(1, [1; 2]%N)]].
Definition over_phi : list (Z * mono) := [(1, [1; 0]%N); (65535, [0; 1]%N)].
Theorem C72_overflow_refuted : exists x F phi fuel, sat_setting x /\ Forall (sorted_poly 2 (o_lt ord2) 65537) F /\ sorted_poly 2 (o_lt ord2) 65537 phi /\
  core_f4sat x fuel F phi = Undef.
Proof.
  exists sz, over_F, over_phi, 40%nat. split; [apply sz_ok|]. split; [repeat (constructor; [apply one_ok; [discriminate|reflexivity]|]); constructor|]. split; [apply one_ok; [discriminate|reflexivity]|]. vm_compute. reflexivity.
Qed.
Print Assumptions C72_overflow_refuted.
