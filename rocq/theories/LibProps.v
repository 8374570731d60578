(** C79: the functions of the library that exchange arrays. *)
From Coq Require Import ZArith NArith Arith List Bool Lia Permutation Znumtheory.
From Verif Require Import LinSpec MonoSpec MonoSpecProofs MonoModel MonoCmpProofs GbSpec GbProofs GbIdeal F4Model LaProps F4Rows RoundProofs F4Props ModInvModel ImportModel ImportProps NfSpec NfModel NfProofs NfProps DrvProofs LibSpec LibModel LibProofs.
Import ListNotations.
Open Scope Z_scope.

(** What is assumed of a call: options as for the basis computation (C23), not the lexicographic order (C51), sorting routines that sort. *)
Record call_ok (c : config) (sorter : list mono -> list nat) (presort : list (list (Z * mono)) -> list (list (Z * mono))) : Prop := {
  ca_cfg : cfg_ok c; ca_ord : (o_nev (c_o c) <> 0 \/ o_mo (c_o c) <> 1)%nat;
  ca_sort : forall l, Forall (fun m => length m = o_nv (c_o c)) l -> sorts (gens_le (c_o c)) sorter l;
  ca_pre : forall l, Permutation l (presort l) }.
Lemma call_p c sorter presort : call_ok c sorter presort -> 1 < c_p c < 2 ^ 31.
Proof. intros H. pose proof (cfg_p c (ca_cfg _ _ _ H)). pose proof (ck_k c (ca_cfg _ _ _ H)) as K. unfold in_class in K. destruct (c_k c); lia. Qed.

(** The arrays determine the polynomials: the caller can read them in one way only. *)
Theorem C79_readable : forall n a s s', (forall f t, In f s -> In t f -> length (snd t) = n) -> (forall f t, In f s' -> In t f -> length (snd t) = n) -> denotes a s -> denotes a s' -> s = s'.
Proof. exact denotes_unique. Qed.
Print Assumptions C79_readable.

Lemma sorted_out nv lt p f : p < 2 ^ 31 -> f = [] \/ sorted_poly nv lt p f -> out_ok nv f.
Proof. intros Hp [->|(_ & K & _)] t Ht; [destruct Ht|]. destruct (K t Ht). split; [lia|assumption]. Qed.
Lemma import_1 c sorter presort a s : call_ok c sorter presort -> s <> [] -> Forall (given_poly (c_p c) (o_nv (c_o c))) s -> denotes a s ->
  exists F, lib_import (c_o c) sorter presort (c_p c) a = Some (1, F) /\ Forall (sorted_poly (o_nv (c_o c)) (o_lt (c_o c)) (c_p c)) F /\ same_ideal (o_nv (c_o c)) (c_p c) (pfs (map meant s)) (pfs F).
Proof. intros CO NE HG D. apply lib_import_ok; auto; [apply (ck_o c (ca_cfg _ _ _ CO))|apply (ca_ord _ _ _ CO)|apply (call_p _ _ _ CO)|exact (ca_sort _ _ _ CO)|exact (ca_pre _ _ _ CO)]. Qed.

(** ** Groebner bases *)
(** What the caller gets: the number of terms, the number of elements, and arrays that denote a Groebner basis of the ideal of the given polynomials, minimal, monic,
    with decreasing terms and coefficients in [1, p), reduced and increasing when reduction is asked for. *)
Theorem C79_basis : forall c sorter presort red fuel a s r, call_ok c sorter presort -> s <> [] ->
  let nv := o_nv (c_o c) in let lt := o_lt (c_o c) in let p := c_p c in
  Forall (given_poly p nv) s -> denotes a s -> export_f4 c sorter presort red fuel a = Ok r ->
  exists G, same_ideal nv p (pfs (map meant s)) (pfs G) /\ groebner nv lt p (pfs G) /\ minimal_basis nv lt p G /\
    (forall f, In f G -> sorted_poly nv lt p f /\ exists m f', f = (1, m) :: f') /\
    (red = true -> reduced_basis nv lt p G /\ ForallOrdPairs (fun f g => lt (lmono f) (lmono g)) G) /\
    (Z.of_nat (length (concat G)) < 2 ^ 31 -> exists b, r = (Z.of_nat (length (concat G)), Some (Z.of_nat (length G), b)) /\ denotes b (map (handed nv) G)).
Proof.
  intros c sorter presort red fuel a s r CO NE nv lt p HG D E. pose proof (call_p _ _ _ CO) as Hp. destruct (import_1 c sorter presort a s CO NE HG D) as (F & EI & SF & SI). unfold export_f4 in E. rewrite EI in E. cbn [of_opt rbind Z.eqb] in E.
  destruct (core_f4 c red fuel F) as [G| | |] eqn:EC; try discriminate E. cbn [rbind] in E. destruct (C23_sound c red fuel F G (ca_cfg _ _ _ CO) SF EC) as (A & B & M & S0 & R). fold nv lt p in SI, A, B, M, S0, R. exists G.
  split; [intros f; rewrite (SI f); apply A|]. do 4 (split; [assumption|]). intros SZ.
  assert (NT : nterms G = length (concat G)). { assert (NZ : forall f, In f G -> f <> []) by (intros f Hf; apply (S0 f Hf)). clear - NZ. induction G as [|f G IH]; [reflexivity|]. cbn [nterms fold_right concat]. fold (nterms G). rewrite IH by (intros; apply NZ; now right). rewrite app_length. destruct f; [exfalso; apply (NZ []); [now left|reflexivity]|]. reflexivity. }
  destruct (export_data_ok nv (o_nev (c_o c)) G) as (b & Eb & Db).
  - apply (ck_o c (ca_cfg _ _ _ CO)).
  - apply Forall_forall. intros f Hf. apply (sorted_out nv lt p); [fold p in Hp; lia|]. right. apply (S0 f Hf).
  - apply Forall_forall. intros f Hf. right. apply (S0 f Hf).
  - rewrite NT. exact SZ.
  - fold nv in E. assert (r = (Z.of_nat (nterms G), Some (Z.of_nat (length G), b))) by congruence. exists b. rewrite <- NT. split; assumption.
Qed.
Print Assumptions C79_basis.

(** The call ends, without undefined behaviour (Limit as in C23), when no more than 2^31 - 1 terms come out. *)
Theorem C79_terminates : forall c sorter presort red a s, call_ok c sorter presort -> s <> [] -> Forall (given_poly (c_p c) (o_nv (c_o c))) s -> denotes a s ->
  exists N, forall fuel, (N <= fuel)%nat -> export_f4 c sorter presort red fuel a = Limit \/
    exists F G, lib_import (c_o c) sorter presort (c_p c) a = Some (1, F) /\ core_f4 c red fuel F = Ok G /\ (Z.of_nat (length (concat G)) < 2 ^ 31 -> exists r, export_f4 c sorter presort red fuel a = Ok r).
Proof.
  intros c sorter presort red a s CO NE HG D. destruct (import_1 c sorter presort a s CO NE HG D) as (F & EI & SF & SI). destruct (C23_terminates c red F (ca_cfg _ _ _ CO) SF) as (N & H). exists N. intros fuel Hf. unfold export_f4. rewrite EI. cbn [of_opt rbind Z.eqb].
  destruct (H fuel Hf) as [E|(G & E)]; rewrite E; cbn [rbind]; [now left|]. right. exists F, G. split; [reflexivity|]. split; [exact E|]. intros SZ. pose proof (call_p _ _ _ CO) as Hp.
  destruct (C23_sound c red fuel F G (ca_cfg _ _ _ CO) SF E) as (_ & _ & _ & S0 & _).
  assert (NT : nterms G = length (concat G)). { assert (NZ : forall f, In f G -> f <> []) by (intros f Hf'; apply (S0 f Hf')). clear - NZ. induction G as [|f G IH]; [reflexivity|]. cbn [nterms fold_right concat]. fold (nterms G). rewrite IH by (intros; apply NZ; now right). rewrite app_length. destruct f; [exfalso; apply (NZ []); [now left|reflexivity]|]. reflexivity. }
  destruct (export_data_ok (o_nv (c_o c)) (o_nev (c_o c)) G) as (b & Eb & Db).
  - apply (ck_o c (ca_cfg _ _ _ CO)).
  - apply Forall_forall. intros f Hf'. apply (sorted_out (o_nv (c_o c)) (o_lt (c_o c)) (c_p c)); [lia|]. right. apply (S0 f Hf').
  - apply Forall_forall. intros f Hf'. right. apply (S0 f Hf').
  - rewrite NT. exact SZ.
  - eauto.
Qed.
Print Assumptions C79_terminates.

(** Two calls that ask for the reduced basis of the same ideal, with any generators, options and sorting routines, give the same arrays. *)
Theorem C79_canonical : forall c1 c2 so1 so2 pre1 pre2 fuel1 fuel2 a1 a2 s1 s2 r1 r2, call_ok c1 so1 pre1 -> call_ok c2 so2 pre2 -> c_o c1 = c_o c2 -> c_p c1 = c_p c2 -> s1 <> [] -> s2 <> [] ->
  let nv := o_nv (c_o c1) in let p := c_p c1 in
  Forall (given_poly p nv) s1 -> Forall (given_poly p nv) s2 -> denotes a1 s1 -> denotes a2 s2 -> same_ideal nv p (pfs (map meant s1)) (pfs (map meant s2)) ->
  export_f4 c1 so1 pre1 true fuel1 a1 = Ok r1 -> export_f4 c2 so2 pre2 true fuel2 a2 = Ok r2 -> r1 = r2.
Proof.
  intros c1 c2 so1 so2 pre1 pre2 fuel1 fuel2 a1 a2 s1 s2 r1 r2 C1 C2 Eo Ep N1 N2 nv p G1 G2 D1 D2 SI E1 E2. assert (G2' := G2). unfold nv, p in G2'. rewrite Eo, Ep in G2'.
  destruct (import_1 c1 so1 pre1 a1 s1 C1 N1 G1 D1) as (F1 & I1 & S1 & J1). destruct (import_1 c2 so2 pre2 a2 s2 C2 N2 G2' D2) as (F2 & I2 & S2 & J2). rewrite <- Eo, <- Ep in S2, J2.
  unfold export_f4 in E1, E2. rewrite I1 in E1. rewrite I2 in E2. cbn [of_opt rbind Z.eqb] in E1, E2. destruct (core_f4 c1 true fuel1 F1) as [H1| | |] eqn:Q1; try discriminate E1. destruct (core_f4 c2 true fuel2 F2) as [H2| | |] eqn:Q2; try discriminate E2. cbn [rbind] in E1, E2.
  assert (H1 = H2). { apply (C23_unique c1 c2 fuel1 fuel2 F1 F2 H1 H2); auto; [apply (ca_cfg _ _ _ C1)|apply (ca_cfg _ _ _ C2)|]. intros f. rewrite <- (J1 f), <- (J2 f). apply SI. }
  subst H2. rewrite <- Eo in E2. congruence.
Qed.
Print Assumptions C79_canonical.

(** ** Normal forms *)
Lemma groebner_unit nv lt p (S T : pf -> Prop) : prime p -> same_ideal nv p S T -> (forall f, S f -> exists g y, T g /\ ~ eqp p y 0 /\ peq nv p g (fun m => y * f m)) -> groebner nv lt p S -> groebner nv lt p T.
Proof.
  intros PR SI U GB f m If Lf. apply SI in If. destruct (GB f m If Lf) as (h & l & Sh & (L1 & L2 & L3) & D). destruct (U h Sh) as (g & y & Tg & Ny & Q). exists g, l. split; [exact Tg|]. split; [|exact D]. unfold eqp in *. split; [exact L1|]. split.
  - intros K. specialize (Q l L1). cbv beta in Q. unfold eqp in Q. assert (K2 : (p | y * h l)). { replace (y * h l) with ((g l - 0) - (g l - y * h l)) by ring. now apply Z.divide_sub_r. }
    apply prime_mult in K2; [|exact PR]. destruct K2 as [K2|K2]; [apply Ny|apply L2]; rewrite Z.sub_0_r; exact K2.
  - intros m' Lm' Hlt. specialize (L3 m' Lm' Hlt). specialize (Q m' Lm'). cbv beta in Q. unfold eqp in Q. unfold eqp in L3. rewrite Z.sub_0_r in L3. unfold eqp. replace (g m' - 0) with ((g m' - y * h m') + y * h m') by ring. apply Z.divide_add_r; [exact Q|]. now apply Z.divide_mul_r.
Qed.
Lemma rmap_in {A B} (f : A -> res B) : forall l r, rmap f l = Ok r -> forall x, In x l -> exists y, In y r /\ f x = Ok y.
Proof.
  induction l as [|a l IH]; intros r E x Hx; [destruct Hx|]. cbn [rmap] in E. apply bind_inv in E as (b & Eb & E). apply bind_inv in E as (bs & Ebs & E). injection E as <-. destruct Hx as [<-|Hx]; [exists b; split; [now left|exact Eb]|].
  destruct (IH bs Ebs x Hx) as (y & Hy & Ey). exists y. split; [now right|exact Ey].
Qed.
(** the reducers: the given polynomials made monic, or the reduced basis *)
Lemma reducers_ok c sorter presort (gb : bool) fuel F G : call_ok c sorter presort -> let nv := o_nv (c_o c) in let lt := o_lt (c_o c) in let p := c_p c in
  Forall (sorted_poly nv lt p) F -> (gb = true -> groebner nv lt p (pfs F)) -> (if gb then rmap (normalize_poly (c_k c) p) F else core_f4 c true fuel F) = Ok G ->
  monic_list nv lt p G /\ same_ideal nv p (pfs F) (pfs G) /\ groebner nv lt p (pfs G).
Proof.
  intros CO nv lt p SF GB E. pose proof (ca_cfg _ _ _ CO) as CK. destruct gb.
  - destruct (normalize_all c CK F SF) as (F' & E' & M & SI'). fold p in E'. assert (F' = G) by congruence. subst F'. split; [|split; [exact SI'|]].
    + intros g Hg. rewrite Forall_forall in M. exact (M g Hg).
    + apply (groebner_unit nv lt p (pfs F)); [apply (ck_p c CK)|exact SI'| |apply GB; reflexivity]. intros h (f & Hf & ->). rewrite Forall_forall in SF. destruct (normalize_poly_ok c CK f (SF f Hf)) as (f' & y & Ef & _ & Ny & Q).
      destruct (rmap_in _ _ _ E f Hf) as (f'' & Hf'' & Ef''). fold p in Ef. assert (f'' = f') by congruence. subst f''. exists (cf f'), y. split; [exists f'; auto|]. split; [exact Ny|exact Q].
  - destruct (C23_sound c true fuel F G CK SF E) as (A & B & _ & S0 & _). split; [exact S0|]. split; assumption.
Qed.
(** groebner for the polynomials that are kept *)
Lemma import_groebner c sorter presort a s F : call_ok c sorter presort -> s <> [] -> let nv := o_nv (c_o c) in let lt := o_lt (c_o c) in let p := c_p c in
  Forall (given_poly p nv) s -> denotes a s -> lib_import (c_o c) sorter presort p a = Some (1, F) -> groebner nv lt p (pfs (map meant s)) -> groebner nv lt p (pfs F).
Proof.
  intros CO NE nv lt p HG D EI GB. destruct (lib_import_kept (c_o c) p sorter presort (ck_o c (ca_cfg _ _ _ CO)) (ca_ord _ _ _ CO) (call_p _ _ _ CO) (ca_sort _ _ _ CO) a s NE HG D) as (H & EH & KE). rewrite EI in EH. injection EH as EH.
  destruct (import_1 c sorter presort a s CO NE HG D) as (F' & EI' & _ & SI). assert (F' = F) by (fold p in EI'; congruence). subst F'.
  apply (groebner_unit nv lt p (pfs (map meant s))); [apply (ck_p c (ca_cfg _ _ _ CO))|exact SI| |exact GB]. intros g (f' & Hf' & ->). apply in_map_iff in Hf' as (f & <- & Hf). rewrite EH.
  assert (Q : exists h, In h H /\ kept (c_o c) p f h). { clear - KE Hf. induction KE; [destruct Hf|]. destruct Hf as [<-|Hf]; [eexists; split; [now left|eassumption]|]. destruct (IHKE Hf) as (h & Hh & K). exists h. split; [now right|exact K]. }
  destruct Q as (h & Hh & _ & Q). exists (cf h), 1. split; [exists h; split; [apply (Permutation_in _ (ca_pre _ _ _ CO H)); exact Hh|reflexivity]|]. split.
  - unfold eqp. intros K. apply Z.divide_pos_le in K; [|lia]. pose proof (call_p _ _ _ CO). unfold p in K. lia.
  - intros m Lm. destruct (Q m Lm) as (q & Hq). exists (- q). lia.
Qed.
(** one polynomial and its normal form modulo the ideal I: congruent, zero exactly for the members, in stored form, and no monomial divisible by the leading monomial of
    a member *)
Definition reduced_to (nv : nat) (lt : mono -> mono -> Prop) (p : Z) (I : pf -> Prop) (f h : list (Z * mono)) : Prop :=
  I (fun u => cf f u - cf h u) /\ (I (cf f) <-> h = []) /\ (h = [] \/ sorted_poly nv lt p h) /\ forall t g l, In t h -> I g -> is_lead nv lt p g l -> ~ mdvd l (snd t).
Lemma nf_parts c cn sorter presort gb fuel bs tbr s ts : call_ok c sorter presort -> cfg_ok cn -> c_o cn = c_o c -> c_p cn = c_p c -> s <> [] ->
  let nv := o_nv (c_o c) in let lt := o_lt (c_o c) in let p := c_p c in
  Forall (given_poly p nv) s -> Forall (given_poly p nv) ts -> denotes bs s -> denotes tbr ts -> (gb = true -> groebner nv lt p (pfs (map meant s))) ->
  exists F T, lib_import (c_o c) sorter presort p bs = Some (1, F) /\ Forall (sorted_poly nv lt p) F /\ tbr_import (c_o c) sorter p tbr = Some T /\ Forall (sorted_poly nv lt p) T /\
    export_nf c cn sorter presort gb fuel bs tbr = (let! G := (if gb then rmap (normalize_poly (c_k c) p) F else core_f4 c true fuel F) in let! H := basis_nf cn fuel G T in export_data nv (o_nev (c_o c)) H) /\
    forall G, (if gb then rmap (normalize_poly (c_k c) p) F else core_f4 c true fuel F) = Ok G -> monic_list nv lt p G /\
      forall H, basis_nf cn fuel G T = Ok H -> Forall2 (fun f h => reduced_to nv lt p (ideal nv p (pfs (map meant s))) (meant f) h) ts H.
Proof.
  intros CO CN Eo Ep NE nv lt p HG HT D DT GB. pose proof (ca_cfg _ _ _ CO) as CK. destruct (import_1 c sorter presort bs s CO NE HG D) as (F & EI & SF & SI). fold nv lt p in EI, SF, SI.
  destruct (tbr_import_ok (c_o c) p sorter (ck_o c CK) (ca_ord _ _ _ CO) (call_p _ _ _ CO) (ca_sort _ _ _ CO) tbr ts HT DT) as (T & ET & KT).
  assert (ST : Forall (sorted_poly nv lt p) T) by (clear - KT; induction KT as [|f h ts T [K _] _ IH]; constructor; assumption).
  exists F, T. do 4 (split; [assumption|]). split; [unfold export_nf; fold p; rewrite EI; cbn [of_opt rbind Z.eqb]; rewrite ET; reflexivity|]. intros G EG.
  assert (GF : gb = true -> groebner nv lt p (pfs F)) by (intros ->; apply (import_groebner c sorter presort bs s F CO NE HG D EI); apply GB; reflexivity).
  destruct (reducers_ok c sorter presort gb fuel F G CO SF GF EG) as (MG & SG & GG). fold nv lt p in MG, SG, GG. split; [exact MG|]. intros H EH.
  assert (SJ : same_ideal nv p (pfs (map meant s)) (pfs G)) by (intros f; rewrite (SI f); apply SG).
  assert (MG' := MG). assert (ST' := ST). unfold nv, lt, p in MG', ST'. rewrite <- Eo, <- Ep in MG', ST'. pose proof (C61_sound cn fuel G T H CN MG' ST' EH) as NF. rewrite Eo, Ep in NF. fold nv lt p in NF.
  clear - KT NF SJ GG MG CK. revert H NF. induction KT as [|f t ts T [K1 K2] KT IH]; intros H NF; inversion NF as [|? h ? H' N1 N2]; subst; constructor; [|apply IH; exact N2]. fold nv p in K2. fold nv lt p in K1. destruct N1 as (N1 & N3 & N4).
  assert (C : ideal nv p (pfs (map meant s)) (fun u => cf (meant f) u - cf h u)).
  { apply SJ. eapply ls_eq; [exact N1|]. intros m Lm. cbv beta. destruct (K2 m Lm) as (q & Hq). exists (- q). lia. }
  assert (NR : forall u g l, In u h -> ideal nv p (pfs (map meant s)) g -> is_lead nv lt p g l -> ~ mdvd l (snd u)).
  { intros u g l Hu Ig Lg Dv. apply SJ in Ig. destruct (GG g l Ig Lg) as (g' & l' & Gg' & Lg' & D'). apply (N3 u g' l' Hu Gg' Lg'). apply (mdvd_trans l' l); assumption. }
  split; [exact C|]. split; [|split; [exact N4|exact NR]]. split.
  - intros Im. assert (Ih : ideal nv p (pfs (map meant s)) (cf h)) by (eapply lspan_ext; [apply lspan_sub; [exact Im|exact C]|]; intros m _; cbv beta; ring).
    assert (Lh : lens nv h) by (intros t0 Ht; destruct N4 as [->|(_ & K & _)]; [destruct Ht|apply (K t0 Ht)]). destruct (lead_exists nv lt p (o_lt_order (c_o c)) h Lh) as [Z0|(m & Hm)].
    + apply (sorted_poly_eq nv lt p (o_lt_order (c_o c)) (cfg_p c CK)); [exact N4|now left|exact Z0].
    + exfalso. assert (Hin : exists t, In t h /\ snd t = m) by (destruct Hm as (_ & Nz & _); apply (cf_nz h m); intros K; apply Nz; rewrite K; exists 0; ring). destruct Hin as (u & Hu & Em). apply (NR u (cf h) m Hu Ih Hm). rewrite Em. apply mdvd_refl.
  - intros ->. eapply lspan_ext; [exact C|]. intros m _. cbn [cf]. ring.
Qed.
(** What the caller gets, in the order of the given polynomials: their normal forms modulo the ideal of the generators. The generators have to be a Groebner basis when
    the caller says so. For block orders no polynomial to reduce may be in the ideal (see C79_zero_block_refuted). *)
Theorem C79_normal_forms : forall c cn sorter presort gb fuel bs tbr s ts r, call_ok c sorter presort -> cfg_ok cn -> c_o cn = c_o c -> c_p cn = c_p c -> s <> [] ->
  let nv := o_nv (c_o c) in let lt := o_lt (c_o c) in let p := c_p c in let I := ideal nv p (pfs (map meant s)) in
  Forall (given_poly p nv) s -> Forall (given_poly p nv) ts -> denotes bs s -> denotes tbr ts -> (gb = true -> groebner nv lt p (pfs (map meant s))) ->
  (o_nev (c_o c) = 0%nat \/ forall f, In f ts -> ~ I (cf (meant f))) ->
  export_nf c cn sorter presort gb fuel bs tbr = Ok r ->
  exists H, Forall2 (fun f h => reduced_to nv lt p I (meant f) h) ts H /\
    (Z.of_nat (length (concat (map (handed nv) H))) < 2 ^ 31 -> exists b, r = (Z.of_nat (length (concat (map (handed nv) H))), Some (Z.of_nat (length ts), b)) /\ denotes b (map (handed nv) H)).
Proof.
  intros c cn sorter presort gb fuel bs tbr s ts r CO CN Eo Ep NE nv lt p I HG HT D DT GB NZ E. pose proof (call_p _ _ _ CO) as Hp.
  destruct (nf_parts c cn sorter presort gb fuel bs tbr s ts CO CN Eo Ep NE HG HT D DT GB) as (F & T & _ & SF & _ & ST & EE & K). fold nv lt p in EE, K. rewrite EE in E. apply bind_inv in E as (G & EG & E). apply bind_inv in E as (H & EH & E).
  destruct (K G EG) as [_ KH]. specialize (KH H EH). fold I in KH. exists H. split; [exact KH|]. intros SZ.
  assert (NT : length (concat (map (handed nv) H)) = nterms H). { clear. induction H as [|h H IH]; [reflexivity|]. cbn [map concat nterms fold_right]. fold (nterms H). rewrite app_length, handed_len, IH. reflexivity. }
  assert (LH : length H = length ts) by (symmetry; clear - KH; induction KH; cbn; congruence).
  destruct (export_data_ok nv (o_nev (c_o c)) H) as (b & Eb & Db).
  - apply (ck_o c (ca_cfg _ _ _ CO)).
  - apply Forall_forall. intros h Hh. assert (Q : exists f, reduced_to nv lt p I (meant f) h). { clear - KH Hh. induction KH; [destruct Hh|]. destruct Hh as [<-|Hh]; eauto. } destruct Q as (f & _ & _ & Q & _). apply (sorted_out nv lt p); [unfold p; lia|exact Q].
  - apply Forall_forall. intros h Hh. destruct NZ as [NZ|NZ]; [left; exact NZ|right]. intros ->. assert (Q : exists f, In f ts /\ reduced_to nv lt p I (meant f) []). { clear - KH Hh. induction KH; [destruct Hh|]. destruct Hh as [->|Hh]; [eexists; split; [now left|assumption]|]. destruct (IHKH Hh) as (f & Hf & Q). exists f. split; [now right|exact Q]. }
    destruct Q as (f & Hf & _ & Q & _). apply (NZ f Hf). apply Q. reflexivity.
  - rewrite <- NT. exact SZ.
  - rewrite Eb in E. injection E as <-. exists b. rewrite NT, LH. split; [reflexivity|exact Db].
Qed.
Print Assumptions C79_normal_forms.

(** With a block order and a polynomial to reduce that lies in the ideal, the call never gives an answer: the exponents of the zero polynomial are written with one
    entry too many, so that the array is left. *)
Theorem C79_zero_block_refuted : forall c cn sorter presort gb fuel bs tbr s ts, call_ok c sorter presort -> cfg_ok cn -> c_o cn = c_o c -> c_p cn = c_p c -> s <> [] ->
  let nv := o_nv (c_o c) in let lt := o_lt (c_o c) in let p := c_p c in let I := ideal nv p (pfs (map meant s)) in
  Forall (given_poly p nv) s -> Forall (given_poly p nv) ts -> denotes bs s -> denotes tbr ts -> (gb = true -> groebner nv lt p (pfs (map meant s))) ->
  (0 < o_nev (c_o c))%nat -> Z.of_nat (length ts) <= 2 ^ 31 -> (exists f, In f ts /\ I (cf (meant f))) ->
  forall G T H, (exists F, lib_import (c_o c) sorter presort p bs = Some (1, F) /\ (if gb then rmap (normalize_poly (c_k c) p) F else core_f4 c true fuel F) = Ok G) -> tbr_import (c_o c) sorter p tbr = Some T -> basis_nf cn fuel G T = Ok H ->
  export_nf c cn sorter presort gb fuel bs tbr = Undef.
Proof.
  intros c cn sorter presort gb fuel bs tbr s ts CO CN Eo Ep NE nv lt p I HG HT D DT GB EV SZ (f & Hf & If) G T H (F & EF & EG) ET EH.
  destruct (nf_parts c cn sorter presort gb fuel bs tbr s ts CO CN Eo Ep NE HG HT D DT GB) as (F' & T' & EF' & SF & ET' & ST & EE & K). fold nv lt p in EF', ET', EE, K. assert (F' = F) by congruence. assert (T' = T) by congruence. subst F' T'.
  destruct (K G EG) as [_ KH]. specialize (KH H EH). fold I in KH. rewrite EE. replace (if gb then rmap (normalize_poly (c_k c) p) F else core_f4 c true fuel F) with (Ok G). cbn [rbind]. rewrite EH. cbn [rbind]. apply export_data_zero.
  - split; [exact EV|apply (ck_o c (ca_cfg _ _ _ CO))].
  - assert (LH : length ts = length H) by (clear - KH; induction KH; cbn; congruence). rewrite <- LH. exact SZ.
  - clear - KH Hf If. induction KH as [|f' h ts H R KH IH]; [destruct Hf|]. destruct Hf as [->|Hf]; [left; apply R; exact If|right; apply IH; exact Hf].
Qed.
Print Assumptions C79_zero_block_refuted.

(** When every given polynomial has a coefficient 0 (zero ideals), the call does not give the zero polynomial back: the number of generators left is tested first and the
    calling process is ended. *)
Theorem C79_zero_ideal_refuted : forall c sorter presort red fuel a s, (0 < o_nv (c_o c))%nat -> 0 < c_p c < 2 ^ 31 -> s <> [] -> (forall f t, In f s -> In t f -> length (snd t) = o_nv (c_o c)) ->
  (forall f, In f s -> exists t, In t f /\ fst t = 0) -> denotes a s -> lib_import (c_o c) sorter presort (c_p c) a = Some (0, presort []) /\ export_f4 c sorter presort red fuel a = Undef.
Proof.
  intros c sorter presort red fuel a s NV P NE HL HZ D. destruct (arrays_of (o_nv (c_o c)) a s HL D) as (E1 & E2 & E3 & E4). set (G := map (fun f => to_gen (to_ip f)) s) in *.
  assert (Q : lib_import (c_o c) sorter presort (c_p c) a = Some (0, presort [])).
  { unfold lib_import. rewrite E1. cbn [obind]. rewrite E2, E3, E4. unfold initialize, validate. assert (LG : (0 < length G)%nat) by (unfold G; rewrite map_length; destruct s; [contradiction|cbn; lia]).
    replace (4294967291 <? c_p c) with false by (symmetry; apply Z.ltb_ge; lia). replace (Z.of_nat (o_nv (c_o c)) <? 0) with false by (symmetry; apply Z.ltb_ge; lia). assert (LL : length (ImportProofs.lens_of G) = length G) by (unfold ImportProofs.lens_of; apply map_length). rewrite LL.
    replace (Z.of_nat (length G) <? 1) with false by (symmetry; apply Z.ltb_ge; lia). replace ((0 <? 0) || (Z.of_nat (length G) <=? 0))%bool with false by (symmetry; apply orb_false_iff; split; [reflexivity|apply Z.leb_gt; lia]). replace (c_p c =? 0) with false by (symmetry; apply Z.eqb_neq; lia).
    pose proof (ImportProofs.flags_ff_ok G []) as FO. cbn [app] in FO. change (length (ImportProofs.cfs_of (@nil (list (Z * mono))))) with 0%nat in FO. rewrite FO. cbn [ModInvModel.obind].
    assert (CT : count (map (fun g : list (Z * mono) => existsb (Z.eqb 0) (map fst g)) G) = length G).
    { unfold G. clear - HZ. induction s as [|f s IH]; [reflexivity|]. cbn [map count length]. rewrite IH by (intros; apply HZ; now right). destruct (HZ f (or_introl eq_refl)) as (t & Ht & E). replace (existsb (Z.eqb 0) (map fst (to_gen (to_ip f)))) with true; [reflexivity|]. symmetry. apply existsb_exists. exists 0. split; [|reflexivity]. rewrite to_gen_ip, map_map. cbn [fst]. rewrite <- E. apply (in_map fst). exact Ht. }
    rewrite CT. replace (Z.of_nat (length G) =? 0) with false by (symmetry; apply Z.eqb_neq; lia). rewrite Z.sub_diag. reflexivity. }
  split; [exact Q|]. unfold export_f4. rewrite Q. reflexivity.
Qed.
Print Assumptions C79_zero_ideal_refuted.
