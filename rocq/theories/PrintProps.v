(** C64: printed Groebner bases and their reading (src/msolve/iofiles.c, lifting-gb.c). *)
From Coq Require Import String ZArith NArith Arith List Bool Ascii Lia.
From Verif Require Import ModInvModel ParseSpec ParseModel ParseProofs ParseProps FglmModel MonoModel PrintSpec PrintModel PrintProofs.
Import ListNotations.
Local Open Scope string_scope.
Local Open Scope list_scope.
Open Scope Z_scope.

Lemma Forall2_map_l {A B C} (f : A -> B) (R : B -> C -> Prop) l m : Forall2 R (map f l) m <-> Forall2 (fun x y => R (f x) y) l m.
Proof.
  split.
  - revert m. induction l as [|x l IH]; intros m F; inversion F; subst; constructor; [assumption|apply IH; assumption].
  - intros F. induction F; constructor; assumption.
Qed.
Lemma Forall2_map_r {A B} (f : A -> B) (R : A -> B -> Prop) l : (forall x, In x l -> R x (f x)) -> Forall2 R l (map f l).
Proof. induction l as [|x l IH]; intros H; constructor; [apply H; left; reflexivity|apply IH; intros y Hy; apply H; right; exact Hy]. Qed.
Lemma Forall2_in {A B} (R S : A -> B -> Prop) l m : Forall2 R l m -> (forall x y, In x l -> R x y -> S x y) -> Forall2 S l m.
Proof. intros F. induction F; intros H'; constructor; [apply H'; [left; reflexivity|assumption]|apply IHF; intros a b Ha; apply H'; right; exact Ha]. Qed.
Lemma lines_of names Ps pad fin : names_ok names -> ~ In nl pad -> unblank pad = [] -> (fin = [] \/ fin = [nl]) -> Ps <> [] -> (forall P, In P Ps -> P <> [] /\ forall t, In t P -> good names t) -> lists names (laid pad fin (map (text_poly names) Ps)) Ps.
Proof.
  intros HN H1 H2 H3 NE H. apply laid_lists; try assumption. intros P HP. destruct (H P HP) as [A B]. apply clean_poly; [exact HN|exact A|]. intros t Ht. destruct (B t Ht) as (G1 & G2 & _). auto.
Qed.

(** A polynomial modulo p: coefficients in 1 .. p - 1, 16-bit exponents; [held]: how it is stored. *)
Definition poly_ok (nv : nat) (p : Z) (P : list (N * list N)) : Prop := P <> [] /\ forall x, In x P -> coded nv p x.
(** What is read for a term (c, e): the exponents and a representative of c. *)
Definition same_ff (p : Z) (x : N * list N) (r : (Z * Z) * list Z) : Prop := snd r = map Z.of_N (snd x) /\ snd (fst r) = 1 /\ 0 <= fst (fst r) < 2 ^ 31 /\ (p | fst (fst r) - Z.of_N (fst x)).

(** The printed basis: comments, a bracket, a text denoting exactly the polynomials; as input file it is read as the same polynomials. *)
Theorem C64_ff p nv nev names Ps gs : 0 < p < 2 ^ 31 -> (0 < nv <= 900)%nat -> (nev <= nv)%nat -> List.length names = nv -> names_ok names -> names_short names ->
  Ps <> [] -> Forall (poly_ok nv p) Ps -> Forall2 (held nv nev) Ps gs ->
  exists h body Ts, print_ff_basis 2 p nv nev names (map Some gs) = Some (h ++ "["%char :: body ++ line "]:") /\ comments h /\
    print_ff_nf 2 nv nev names (map Some gs) = Some ("["%char :: body ++ line "]:") /\
    lists names body Ts /\ Forall2 (Forall2 (fun x t => denotes nv t (Z.of_N (fst x), 1) (map Z.of_N (snd x)))) Ps Ts /\
    exists i, read_file (file_of names (dec p) body) = Some i /\ i_names i = names /\ i_char i = p /\ Forall2 (Forall2 (same_ff p)) Ps (i_gens i).
Proof.
  intros Hp Hnv Hnev HL HN HS NE HP HH.
  assert (G : forall P x, In P Ps -> In x P -> good names (tff x) /\ ff_first (tff x) /\ ff_next (tff x) /\ denotes nv (tff x) (Z.of_N (fst x), 1) (map Z.of_N (snd x))).
  { intros P x IP Ix. rewrite <- HL. apply (tff_good names p x HS); [lia|lia|]. rewrite HL. rewrite Forall_forall in HP. destruct (HP P IP) as [_ HP2]. apply HP2. exact Ix. }
  set (Ts := map (map tff) Ps). assert (GT : forall T, In T Ts -> T <> [] /\ (forall t, In t T -> good names t) /\ poly_ff T).
  { intros T HT. apply in_map_iff in HT as (P & <- & IP). rewrite Forall_forall in HP. destruct (HP P IP) as [P1 _]. split; [destruct P; [contradiction|discriminate]|]. split; [intros t Ht; apply in_map_iff in Ht as (x & <- & Ix); apply (G P x IP Ix)|]. destruct P as [|x P]; [contradiction|]. split; [apply (G (x :: P) x IP (or_introl eq_refl))|]. intros u Hu. apply in_map_iff in Hu as (y & <- & Iy). apply (G (x :: P) y IP (or_intror Iy)). }
  assert (NT : Ts <> []) by (unfold Ts; destruct Ps; [contradiction|discriminate]).
  set (body := laid [] [] (map (text_poly names) Ts)). assert (LB : lists names body Ts) by (apply lines_of; [exact HN|intros []|reflexivity|left; reflexivity|exact NT|intros T HT; destruct (GT T HT) as (A & B & _); auto]).
  assert (PT : polys_text nv names (evi nv nev) (map Some gs) = Some (body ++ line "]:")).
  { rewrite (polys_text_ok nv nev names (map Some Ps) (map Some gs) Hnev HL); [unfold body, Ts; rewrite (map_map Some terms_of); reflexivity| |destruct Ps; [contradiction|discriminate]]. clear -HP HH. induction HH as [|P g Ps gs H F IH]; [constructor|]. inversion HP as [|? ? [P1 _] HP']; subst. cbn [map]. constructor; [split; assumption|apply IH; exact HP']. }
  destruct (header_ff_ok false p nv nev names (List.length (map Some gs)) ltac:(lia) ltac:(lia) HL (proj2 HN)) as (h & EH & CH).
  assert (DN : Forall2 (Forall2 (fun x t => denotes nv t (Z.of_N (fst x), 1) (map Z.of_N (snd x)))) Ps Ts).
  { apply Forall2_map_r. intros P IP. apply Forall2_map_r. intros x Ix. apply (G P x IP Ix). }
  exists h, body, Ts. split; [unfold print_ff_basis; cbn [Z.leb Z.compare]; change (negb (2 - 2 =? 0)) with false; cbv zeta; rewrite EH; cbn [obind]; rewrite PT; reflexivity|]. split; [exact CH|]. split; [unfold print_ff_nf; change (2 <=? 0) with false; change (negb (2 - 2 =? 0)) with false; cbv iota; rewrite PT; reflexivity|]. split; [exact LB|]. split; [exact DN|].
  destruct (dec_ok p ltac:(lia)) as (D1 & D2 & _). destruct (C36_ff (file_of names (dec p) body) names p Ts) as (i & R1 & R2 & R3 & R4); [destruct names; [cbn in HL; lia|discriminate]|exact HN|exact Hp|apply file_lists; assumption|exact GT|].
  exists i. split; [exact R1|]. split; [exact R2|]. split; [exact R3|]. unfold Ts in R4. rewrite Forall2_map_l in R4. apply (Forall2_in _ _ _ _ R4). intros P gen IP R. rewrite Forall2_map_l in R. apply (Forall2_in _ _ _ _ R). intros x r Ix (Q1 & Q2 & Q3 & Q4). destruct (G P x IP Ix) as (_ & _ & _ & (E1 & E2 & E3)). cbn [fst snd] in E1. rewrite HL in Q1. split; [congruence|]. split; [exact Q2|]. split; [exact Q3|]. rewrite <- E1. exact Q4.
Qed.
Print Assumptions C64_ff.

(** The printed leading ideal, when none of the leading monomials is 1. *)
Theorem C64_lead_ff p nv nev names Ls (gs : list (option pol)) : 0 < p < 2 ^ 31 -> (0 < nv <= 900)%nat -> (nev <= nv)%nat -> List.length names = nv -> names_ok names -> names_short names ->
  Ls <> [] -> (forall e, In e Ls -> (forall x, In x e -> (x < 2 ^ 16)%N) /\ exists x, In x e /\ x <> 0%N) ->
  Forall2 (fun e g => List.length e = nv /\ exists c ev r, g = Some ((c, ev) :: r) /\ stored nev e ev) Ls gs ->
  exists h body Ts, print_ff_basis 1 p nv nev names gs = Some (h ++ "["%char :: body ++ line "]:") /\ comments h /\
    lists names body Ts /\ Forall2 (fun e T => exists t, T = [t] /\ denotes nv t (1, 1) (map Z.of_N e)) Ls Ts /\
    exists i, read_file (file_of names (dec p) body) = Some i /\ i_names i = names /\ i_char i = p /\
      Forall2 (fun e gen => exists n, gen = [((n, 1), map Z.of_N e)] /\ 0 <= n < 2 ^ 31 /\ (p | n - 1)) Ls (i_gens i).
Proof.
  intros Hp Hnv Hnev HL HN HS NE HE HH.
  assert (G : forall e, In e Ls -> good names (tlead e) /\ ff_first (tlead e) /\ denotes nv (tlead e) (1, 1) (map Z.of_N e)).
  { intros e Ie. destruct (HE e Ie) as [E1 E2]. rewrite <- HL. apply tlead_good; [exact HS|lia| |exact E1|exact E2]. rewrite HL. clear -HH Ie. induction HH as [|a g Ls gs [HA _] F IH]; [destruct Ie|]. destruct Ie as [<-|Ie]; [exact HA|apply IH; exact Ie]. }
  set (Ts := map (fun e => [tlead e]) Ls). assert (GT : forall T, In T Ts -> T <> [] /\ (forall t, In t T -> good names t) /\ poly_ff T).
  { intros T HT. apply in_map_iff in HT as (e & <- & Ie). destruct (G e Ie) as (G1 & G2 & _). split; [discriminate|]. split; [intros t [<-|[]]; exact G1|]. split; [exact G2|]. intros u []. }
  assert (NT : Ts <> []) by (unfold Ts; destruct Ls; [contradiction|discriminate]).
  set (body := laid [] [] (map (text_poly names) Ts)). assert (LB : lists names body Ts) by (apply lines_of; [exact HN|intros []|reflexivity|left; reflexivity|exact NT|intros T HT; destruct (GT T HT) as (A & B & _); auto]).
  pose proof (leads_text_ok nv nev names Ls gs Hnev HL HH NE) as PT. fold Ts in PT. fold body in PT.
  destruct (header_ff_ok true p nv nev names (List.length gs) ltac:(lia) ltac:(lia) HL (proj2 HN)) as (h & EH & CH).
  exists h, body, Ts. split; [unfold print_ff_basis; cbv zeta; change (1 <=? 0) with false; change (negb (2 - 1 =? 0)) with true; cbv iota; rewrite EH; cbn [obind]; rewrite PT; reflexivity|]. split; [exact CH|]. split; [exact LB|]. split; [apply Forall2_map_r; intros e Ie; exists (tlead e); split; [reflexivity|apply (G e Ie)]|].
  destruct (dec_ok p ltac:(lia)) as (D1 & D2 & _). destruct (C36_ff (file_of names (dec p) body) names p Ts) as (i & R1 & R2 & R3 & R4); [destruct names; [cbn in HL; lia|discriminate]|exact HN|exact Hp|apply file_lists; assumption|exact GT|].
  exists i. split; [exact R1|]. split; [exact R2|]. split; [exact R3|]. unfold Ts in R4. rewrite Forall2_map_l in R4. apply (Forall2_in _ _ _ _ R4). intros e gen Ie R. destruct (G e Ie) as (_ & _ & (E1 & E2 & E3)). inversion R as [|t r ? l (Q1 & Q2 & Q3 & Q4) R']; subst. inversion R'; subst. destruct r as [[n d] ex]. cbn [fst snd] in *. subst d ex. exists n. split; [rewrite E3; reflexivity|]. split; [exact Q3|]. rewrite E1 in Q4. exact Q4.
Qed.
Print Assumptions C64_lead_ff.

(** A basis over Q as it is lifted (C62 gives the denominators 1): the monomials of the list mb increasing, the first one 1 and the others
    not; positive leading coefficients; leading monomials other than 1; at most 10000 digits. *)
Definition qpoly_ok (nv : nat) (mb : list (list Z)) (g : list Z * qpol) : Prop :=
  dense_ok nv mb (fst g) (snd g) /\ (forall e, In e (fst g) -> 0 <= e < 2 ^ 31) /\ digits (q_lm (snd g)) /\
  forall j, (j < List.length (q_cf (snd g)))%nat -> (forall e, In e (nth j mb []) -> 0 <= e < 2 ^ 31) /\ digits (fst (nth j (q_cf (snd g)) (0, 1))) /\ digits (snd (nth j (q_cf (snd g)) (0, 1))).
Lemma dense_good names mb g x : names_short names -> (List.length names <= 500)%nat -> qpoly_ok (List.length names) mb g -> In x (dense_terms (q_lm (snd g)) (fst g) (q_cf (snd g)) mb) -> good names (tqq x) /\ denotes (List.length names) (tqq x) (fst x) (snd x).
Proof.
  intros HS HL ((A & B & C & D & E & F) & H1 & H2 & H3) Hx. cbn [dense_terms In] in Hx. destruct Hx as [<-|Hx].
  - apply tqq_good; cbn [fst snd]; try assumption; [lia|]. unfold digits. change (Z.abs 1) with 1. apply (Z.pow_gt_1 10); [lia|]. rewrite big_eq. lia.
  - apply in_rev in Hx. apply filter_In in Hx as [Hx _]. rewrite combine_at in Hx by exact E. apply in_map_iff in Hx as (j & <- & Hj). apply in_seq in Hj. destruct (F j ltac:(lia)) as (F1 & F2 & F3 & F4). destruct (H3 j ltac:(lia)) as (K1 & K2 & K3). apply tqq_good; cbn [fst snd at_]; assumption.
Qed.
(** [elim] variables are eliminated: their names are not used. *)
Theorem C64_qq truncated elim names mb gs : names_ok names -> names_short names -> (elim < List.length names)%nat -> (List.length names - elim <= 500)%nat -> gs <> [] ->
  (forall g, In g gs -> qpoly_ok (List.length names - elim) mb g) ->
  exists h body Ts, print_gb_qq 2 truncated elim names mb gs = Some (h ++ "["%char :: body ++ line "]:") /\ comments h /\
    lists (skipn elim names) body Ts /\ Forall2 (fun g => Forall2 (fun x t => denotes (List.length names - elim) t (fst x) (snd x)) (dense_terms (q_lm (snd g)) (fst g) (q_cf (snd g)) mb)) gs Ts /\
    exists i, read_file (file_of (skipn elim names) (s_ "0") body) = Some i /\ i_names i = skipn elim names /\ i_char i = 0 /\ i_gens i = map (fun g => dense_terms (q_lm (snd g)) (fst g) (q_cf (snd g)) mb) gs.
Proof.
  intros HN HS HE HL NE HG. set (vs := skipn elim names). assert (VL : List.length vs = (List.length names - elim)%nat) by apply skipn_length. rewrite <- VL in *.
  assert (IV : forall n, In n vs -> In n names) by (intros n Hn; rewrite <- (firstn_skipn elim names); apply in_or_app; right; exact Hn).
  assert (VN : names_ok vs).
  { destruct HN as [HN1 HN2]. split; [|intros n Hn; apply HN2; apply IV; exact Hn]. rewrite <- (firstn_skipn elim names) in HN1. fold vs in HN1. clear -HN1. induction (firstn elim names) as [|a l IH]; [exact HN1|]. cbn in HN1. apply NoDup_cons_iff in HN1 as [_ HN1]. apply IH. exact HN1. }
  assert (VS : names_short vs) by (intros n Hn; apply HS; apply IV; exact Hn).
  set (ts := fun g : list Z * qpol => map tqq (dense_terms (q_lm (snd g)) (fst g) (q_cf (snd g)) mb)). set (Ts := map ts gs).
  assert (GT : forall T, In T Ts -> T <> [] /\ forall t, In t T -> good vs t).
  { intros T HT. apply in_map_iff in HT as (g & <- & Ig). split; [discriminate|]. intros t Ht. apply in_map_iff in Ht as (x & <- & Hx). apply (dense_good vs mb g x VS HL (HG g Ig) Hx). }
  assert (NT : Ts <> []) by (unfold Ts; destruct gs; [contradiction|discriminate]).
  set (body := laid [" "%char] [nl] (map (text_poly vs) Ts)). assert (LB : lists vs body Ts) by (apply lines_of; [exact VN|intros [X|[]]; discriminate X|reflexivity|right; reflexivity|exact NT|exact GT]).
  assert (PT : entries (modpoly_text vs mb) gs = Some body).
  { unfold body, Ts. rewrite map_map. apply entries_ok; [exact NE|]. intros g Ig. apply modpoly_ok. apply (HG g Ig). }
  destruct (header_qq_ok 2 truncated elim names (List.length gs) HE (proj2 HN)) as (h & EH & CH).
  exists h, body, Ts. split.
  { unfold print_gb_qq. rewrite EH. cbn [obind]. change (2 <? 1) with false. change (2 =? 1) with false. cbv iota. unfold gb_text. fold vs. destruct gs as [|g0 gs']; [contradiction|]. rewrite PT. reflexivity. }
  split; [exact CH|]. split; [exact LB|]. split.
  { apply Forall2_map_r. intros g Ig. apply Forall2_map_r. intros x Hx. apply (dense_good vs mb g x VS HL (HG g Ig) Hx). }
  destruct (C36_qq (file_of vs (s_ "0") body) vs Ts) as (i & R1 & R2 & R3 & R4); [intros E; rewrite E in VL; cbn in VL; lia|exact VN|apply file_lists; [exact VN|exact VS|split; [discriminate|reflexivity]|reflexivity|exact LB]|exact GT|].
  exists i. split; [exact R1|]. split; [exact R2|]. split; [exact R3|]. unfold Ts in R4. rewrite Forall2_map_l in R4.
  assert (K : Forall2 (fun g gen => gen = dense_terms (q_lm (snd g)) (fst g) (q_cf (snd g)) mb) gs (i_gens i)).
  { apply (Forall2_in _ _ _ _ R4). intros g gen Ig R. unfold ts in R. rewrite Forall2_map_l in R. assert (R' : Forall2 (fun x r => r = x) (dense_terms (q_lm (snd g)) (fst g) (q_cf (snd g)) mb) gen).
    { apply (Forall2_in _ _ _ _ R). intros x r Hx Q. destruct (dense_good vs mb g x VS HL (HG g Ig) Hx) as (_ & E1 & E2 & E3). unfold row_qq in Q. rewrite Q, E1, E2, E3. destruct x as [[n d] m]. reflexivity. }
    clear -R'. induction R'; congruence. }
  clear -K. induction K; cbn [map]; congruence.
Qed.
Print Assumptions C64_qq.

(** ** cases *)
Definition ex_vars : list str := [s "t"; s "x1"; s "y"].
Lemma ex_vars_ok : names_ok ex_vars /\ names_short ex_vars.
Proof.
  split; [split; [repeat constructor; cbn; intuition discriminate|intros n [<-|[<-|[<-|[]]]]; name_tac]|]. intros n [<-|[<-|[<-|[]]]]; cbn; lia.
Qed.
(** t + 100 x1^2 y + 7 and x1^3 + 12 y^10 x1 + 1 modulo 101, one variable eliminated: a degree before each block *)
Definition ex_Ps : list (list (N * list N)) := [[(1, [1; 0; 0]); (100, [0; 2; 1]); (7, [0; 0; 0])]; [(1, [0; 3; 0]); (12, [0; 1; 10]); (1, [0; 0; 0])]]%N.
Definition ex_gs : list pol := [[(1, [1; 1; 0; 0; 0]); (100, [0; 0; 3; 2; 1]); (7, [0; 0; 0; 0; 0])]; [(1, [0; 0; 3; 3; 0]); (12, [0; 0; 11; 1; 10]); (1, [0; 0; 0; 0; 0])]]%N.
Lemma ex_coded c e : In (c, e) (concat ex_Ps) -> coded 3 101 (c, e).
Proof.
  intros H. cbn in H. repeat (destruct H as [H|H]; [injection H as <- <-; split; [cbn; lia|split; [reflexivity|intros x Hx; cbn in Hx; repeat (destruct Hx as [<-|Hx]; [reflexivity|]); destruct Hx]]|]). destruct H.
Qed.
Lemma ex_polys_ok : Forall (poly_ok 3 101) ex_Ps.
Proof.
  apply Forall_forall. intros P HP. split; [destruct HP as [<-|[<-|[]]]; discriminate|]. intros [c e] Hx. apply ex_coded. apply in_concat. exists P. auto.
Qed.
Lemma ex_held : Forall2 (held 3 1) ex_Ps ex_gs.
Proof.
  repeat (constructor; [repeat (constructor; [split; [reflexivity|split; [reflexivity|cbn; eexists; eexists; reflexivity]]|]); constructor|]). constructor.
Qed.
Definition ex_body : str := s "1*t^1+100*x1^2*y^1+7,
1*x1^3+12*x1^1*y^10+1".
Example C64_ff_ex : (exists h, print_ff_basis 2 101 3 1 ex_vars (map Some ex_gs) = Some (h ++ "["%char :: ex_body ++ line "]:")) /\
  option_map i_gens (read_file (file_of ex_vars (dec 101) ex_body)) = Some [[((1, 1), [1; 0; 0]); ((100, 1), [0; 2; 1]); ((7, 1), [0; 0; 0])]; [((1, 1), [0; 3; 0]); ((12, 1), [0; 1; 10]); ((1, 1), [0; 0; 0])]] /\
  exists h body Ts, print_ff_basis 2 101 3 1 ex_vars (map Some ex_gs) = Some (h ++ "["%char :: body ++ line "]:") /\ comments h /\ lists ex_vars body Ts.
Proof.
  split; [|split].
  - destruct (header_ff_ok false 101 3 1 ex_vars (List.length (map Some ex_gs)) ltac:(lia) ltac:(lia) eq_refl (proj2 (proj1 ex_vars_ok))) as (h & EH & _). exists h. unfold print_ff_basis. cbv zeta. change (2 <=? 0) with false. change (negb (2 - 2 =? 0)) with false. cbv iota. rewrite EH. cbn [obind].
    replace (polys_text 3 ex_vars (evi 3 1) (map Some ex_gs)) with (Some (ex_body ++ line "]:")) by (vm_compute; reflexivity). reflexivity.
  - vm_compute. reflexivity.
  - destruct ex_vars_ok as [A B]. destruct (C64_ff 101 3 1 ex_vars ex_Ps ex_gs ltac:(lia) ltac:(lia) ltac:(lia) eq_refl A B ltac:(discriminate) ex_polys_ok ex_held) as (h & body & Ts & H1 & H2 & _ & H3 & _). exists h, body, Ts. auto.
Qed.
(** the leading ideal of the same basis *)
Example C64_lead_ff_ex : exists h, print_ff_basis 1 101 3 1 ex_vars (map Some ex_gs) = Some (h ++ s "[t^1,
x1^3]:
") /\ comments h.
Proof.
  destruct (header_ff_ok true 101 3 1 ex_vars 2 ltac:(lia) ltac:(lia) eq_refl (proj2 (proj1 ex_vars_ok))) as (h & EH & CH). exists h. split; [|exact CH]. unfold print_ff_basis. cbv zeta. change (1 <=? 0) with false. change (negb (2 - 1 =? 0)) with true. cbv iota. change (List.length (map Some ex_gs)) with 2%nat. rewrite EH. cbn [obind]. replace (leads_text 3 ex_vars (evi 3 1) (map Some ex_gs)) with (Some (s "t^1,
x1^3]:
")) by (vm_compute; reflexivity). reflexivity.
Qed.
(** The leading ideal of the whole ring is printed as an empty list, without the monomial 1; a basis without elements as a bracket that is
    not closed. *)
Definition tail_of (n : nat) (o : option str) : option str := option_map (fun t => skipn (List.length t - n) t) o.
Example C64_lead_one : tail_of 10 (print_ff_basis 1 101 2 0 [s "x"; s "y"] [Some [(1, [0; 0; 0])]%N]) = Some (s "
#---
[]:
").
Proof. vm_compute. reflexivity. Qed.
Example C64_one_full : tail_of 11 (print_ff_basis 2 101 2 0 [s "x"; s "y"] [Some [(1, [0; 0; 0])]%N]) = Some (s "
#---
[1]:
").
Proof. vm_compute. reflexivity. Qed.
Example C64_empty_ff : tail_of 7 (print_ff_basis 2 101 2 0 [s "x"; s "y"] []) = Some (s "
#---
[").
Proof. vm_compute. reflexivity. Qed.
Example C64_empty_qq : tail_of 11 (print_gb_qq 2 false 0 [s "x"; s "y"] [] []) = Some (s "
#---
[0]:
").
Proof. vm_compute. reflexivity. Qed.

(** 14 x^2 + 6 x - 35 and y^3 + x y - x^2 ... over Q, the variable t eliminated *)
Definition ex_mb : list (list Z) := [[0; 0]; [0; 1]; [1; 0]; [0; 2]; [1; 1]].
Definition ex_q : list (list Z * qpol) :=
  [([2; 0], {| q_lm := 14; q_cf := [(-35, 1); (0, 1); (6, 1)] |}); ([0; 3], {| q_lm := 1; q_cf := [(1, 1); (-1, 1); (0, 1); (-2, 3); (1, 1)] |})].
Example C64_qq_ex : (exists h, print_gb_qq 2 false 1 ex_vars ex_mb ex_q = Some (h ++ s "[14*x1^2+6*x1-35, 
y^3+x1*y-2/3*y^2-1*y+1
]:
")) /\ (forall g, In g ex_q -> qpoly_ok 2 ex_mb g).
Proof.
  split.
  - destruct (header_qq_ok 2 false 1 ex_vars 2 ltac:(cbn; lia) (proj2 (proj1 ex_vars_ok))) as (h & EH & _). exists h. unfold print_gb_qq. change (List.length ex_q) with 2%nat. rewrite EH. cbn [obind]. change (2 <? 1) with false. cbv iota. replace (gb_text (2 =? 1) 1 ex_vars ex_mb ex_q) with (Some (s "[14*x1^2+6*x1-35, 
y^3+x1*y-2/3*y^2-1*y+1
]:
")) by (vm_compute; reflexivity). reflexivity.
  - assert (DG : forall n, Z.abs n < 100 -> digits n).
    { intros n H. unfold digits. rewrite big_eq. apply (Z.lt_trans _ _ _ H). change 100 with (10 ^ 2). apply Z.pow_lt_mono_r; lia. }
    intros g [<-|[<-|[]]]; (split; [split; [cbn; lia|split; [reflexivity|split; [reflexivity|split; [discriminate|split; [cbn; lia|]]]]]|split; [intros e He; cbn in He; repeat (destruct He as [<-|He]; [lia|]); destruct He|split; [apply DG; cbn; lia|]]]); intros j Hj; cbn in Hj.
    all: repeat (first [lia|destruct j as [|j]; [try (split; [reflexivity|split; [split; [intros X; first [discriminate X|discriminate]|intros X; first [reflexivity|exfalso; apply X; reflexivity]]|split; [cbn; lia|cbn; lia]]]);
      try (split; [intros e He; cbn in He; repeat (destruct He as [<-|He]; [lia|]); destruct He|split; apply DG; cbn; lia])|]]).
Qed.
