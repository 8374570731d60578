(** Property C48. *)
From Coq Require Import ZArith NArith Arith List Bool Lia.
From Verif Require Import ModInvModel FglmModel MonoSpec MonoModel MonoProofs MonoDivProofs DupSpec DupModel DupProofs.
Import ListNotations.
Local Open Scope nat_scope.

(** ** C48 *)
Lemma content_map h l : (forall a, In a l -> a < length h) -> map (content h) l = map Some (map (rd h) l).
Proof. intros H. rewrite map_map. apply map_ext_in. intros a Ha. apply rd_content, H, Ha. Qed.
(** Whatever the trace (arrays of the lengths that the trace says, all allocated; the array of the masks is not one of the others) and the
    number of threads, all the copies are made: each has the sizes of the original and, except for the masks, arrays with the same contents
    in the same order; all the arrays are new, and no array belongs to two copies. The original arrays keep their contents, except the masks. *)
Theorem C48_copies : forall n h t, wf_trace h t -> exists h' ts, dup_tracer n h t = Some (h', ts) /\ length ts = n /\
  (forall t', In t' ts -> tr_ltd t' = tr_ltd t /\ tr_std t' = tr_std t /\ tr_lml t' = tr_lml t /\ Forall2 same_td (used t) (tr_td t') /\
     same_data h (arrays t) h' (tr_lmps t' :: arrays_tds (tr_td t'))) /\
  fresh h (concat (map all_arrays ts)) /\ allocated h' (concat (map all_arrays ts)) /\ NoDup (concat (map all_arrays ts)) /\
  (forall a, a < length h -> a <> tr_lm t -> content h' a = content h a).
Proof.
  intros n h t W. destruct (dup_tracer_ok n h t W) as (h' & ts & E & L & W' & LE & OLD & SEQ & C & M). exists h', ts. split; [exact E|]. split; [exact L|].
  assert (IN : forall a, In a (concat (map all_arrays ts)) -> length h <= a < length h') by (intros a Ha; rewrite SEQ in Ha; apply in_seq in Ha; lia). split; [|split; [|split; [|split]]].
  - intros t' Ht'. destruct (C t' Ht') as ((A1 & A2 & A3 & A4) & B & _). do 4 (split; [assumption|]). unfold same_data. pose proof W as ([P1 _] & _). rewrite !content_map; [rewrite B; reflexivity| |].
    + intros a Ha. apply IN. apply in_concat. exists (all_arrays t'). split; [apply in_map; exact Ht'|]. unfold all_arrays. cbn in *. tauto.
    + intros a [<-|Ha]; [exact P1|apply (arrays_in h t a W Ha)].
  - intros a Ha. apply IN, Ha.
  - intros a Ha. apply IN, Ha.
  - rewrite SEQ. apply seq_NoDup.
  - intros a La Na. rewrite !rd_content by lia. rewrite OLD by assumption. reflexivity.
Qed.
Print Assumptions C48_copies.
(** The masks: as soon as there is a copy, the original masks are zero, and so are those of the copies, whatever they were before. *)
Theorem C48_masks_lost : forall n h t h' ts, wf_trace h t -> dup_tracer n h t = Some (h', ts) -> n <> 0 ->
  content h' (tr_lm t) = Some (repeat 0%Z (tr_lml t)) /\ forall t', In t' ts -> content h' (tr_lm t') = Some (repeat 0%Z (tr_lml t)).
Proof.
  intros n h t h' ts W E N. destruct (dup_tracer_ok n h t W) as (h2 & ts2 & E2 & L & W' & LE & OLD & SEQ & C & M). rewrite E in E2. injection E2 as <- <-. pose proof W' as (_ & [B _] & _). split; [rewrite rd_content by exact B; rewrite M by (left; exact N); reflexivity|].
  intros t' Ht'. destruct (C t' Ht') as (_ & _ & Z). rewrite rd_content; [rewrite Z; reflexivity|]. assert (I : In (tr_lm t') (concat (map all_arrays ts))) by (apply in_concat; exists (all_arrays t'); split; [apply in_map; exact Ht'|unfold all_arrays; cbn; tauto]). rewrite SEQ in I. apply in_seq in I. lia.
Qed.
Print Assumptions C48_masks_lost.
(** A zero mask only switches the quick test off: the division test then gives the same answer as with the right mask. *)
Theorem C48_masks_harmless : forall nv nev dm a b sa sb, nev < nv -> length a = nv -> length b = nv -> ht_ndv nv * ht_bpv nv <= length dm ->
  generate_short_divmask nv nev dm (lay nev a) = Some sa -> generate_short_divmask nv nev dm (lay nev b) = Some sb ->
  exists r, check_monomial_division (ht_evl nv nev) sa 0%N (lay nev a) (lay nev b) = Some r /\ check_monomial_division (ht_evl nv nev) sa sb (lay nev a) (lay nev b) = Some r /\ (r = true <-> mdvd b a).
Proof.
  intros nv nev dm a b sa sb Hn Ha Hb Hd Es Et. destruct (check_monomial_division_ok nv nev dm a b sa sb Hn Ha Hb Hd Es Et) as (r & E & R). destruct (exponents_ge_ok (ht_evl nv nev) (lay nev a) (lay nev b)) as (r' & E' & R'); try (apply lay_length; assumption); [apply evl_pos|].
  rewrite lay_dvd in R' by assumption. assert (r' = r) by (destruct r, r'; try reflexivity; exfalso; [assert (false = true) by (apply R', R; reflexivity)|assert (false = true) by (apply R, R'; reflexivity)]; discriminate). subst r'. exists r. split; [|split; assumption]. unfold check_monomial_division. cbn [N.ldiff N.eqb negb]. exact E'.
Qed.
Print Assumptions C48_masks_harmless.
(** The arrays of the linear forms, lead monomials and multiplication matrix: equal copies of the first entries, new, pairwise different. *)
Theorem C48_arrays : forall n h a len s, content h a = Some s -> len <= length s ->
  dup_array n h a len = Some (h ++ repeat (firstn len s) n, seq (length h) n).
Proof.
  induction n as [|n IH]; intros h a len s E L; cbn [dup_array seq repeat]; [rewrite app_nil_r; reflexivity|]. unfold copy_n, read_n. change (nth_error h a) with (content h a). rewrite E. cbn [obind]. rewrite (proj2 (Nat.leb_le _ _) L). cbn [obind alloc fst snd].
  rewrite (IH (h ++ [firstn len s]) a len s); [|unfold content; rewrite nth_error_app1; [exact E|apply nth_error_Some; unfold content in E; rewrite E; discriminate]|exact L]. cbn [obind fst snd]. rewrite <- app_assoc, app_length, Nat.add_1_r. reflexivity.
Qed.
Print Assumptions C48_arrays.
Example C48_ex : let h := [[2; 5]; [7; 9]; [10; 11; 12; 13]; [20; 21]; [3]; [255]]%Z in
  let t := {| tr_td := [{| t_rri := 2; t_tri := 3; t_nlms := 4; t_rba := [5]; t_deg := 3; t_rld := 4; t_tld := 2; t_nlm := 1 |}]; tr_ltd := 1; tr_std := 8; tr_lm := 1; tr_lmps := 0; tr_lml := 2 |} in
  wf_trace h t /\ dup_tracer 2 h t = Some ([[2; 5]; [0; 0]; [10; 11; 12; 13]; [20; 21]; [3]; [255]; [2; 5]; [0; 0]; [10; 11; 12; 13]; [20; 21]; [3]; [255]; [2; 5]; [0; 0]; [10; 11; 12; 13]; [20; 21]; [3]; [255]]%Z,
    [{| tr_td := [{| t_rri := 8; t_tri := 9; t_nlms := 10; t_rba := [11]; t_deg := 0; t_rld := 4; t_tld := 2; t_nlm := 1 |}]; tr_ltd := 1; tr_std := 8; tr_lm := 7; tr_lmps := 6; tr_lml := 2 |};
     {| tr_td := [{| t_rri := 14; t_tri := 15; t_nlms := 16; t_rba := [17]; t_deg := 0; t_rld := 4; t_tld := 2; t_nlm := 1 |}]; tr_ltd := 1; tr_std := 8; tr_lm := 13; tr_lmps := 12; tr_lml := 2 |}]).
Proof.
  cbv zeta. split; [|reflexivity]. split; [split; cbn; auto with arith|]. split; [split; cbn; auto with arith|]. split; [cbn; auto|]. split; [|intros H; cbn in H; repeat destruct H as [H|H]; congruence || exact H].
  intros u [<-|[]]. split; [split; cbn; auto with arith|]. split; [split; cbn; lia|]. split; [split; cbn; lia|]. split; [reflexivity|]. intros a [<-|[]]. split; cbn; lia.
Qed.
