(** Proofs about DupModel. *)
From Coq Require Import ZArith Arith List Bool Lia.
From Verif Require Import ModInvModel FglmModel DupSpec DupModel.
Import ListNotations.
Local Open Scope nat_scope.

Definition rd (h : heap) (a : nat) : list Z := nth a h [].
Lemma rd_content h a : a < length h -> content h a = Some (rd h a).
Proof. intros H. unfold content, rd. apply nth_error_nth'. exact H. Qed.
Lemma rd_app h g a : a < length h -> rd (h ++ g) a = rd h a.
Proof. intros H. unfold rd. apply app_nth1. exact H. Qed.
Definition holds (h : heap) (a n : nat) : Prop := a < length h /\ length (rd h a) = n.
Lemma holds_app h g a n : holds h a n -> holds (h ++ g) a n.
Proof. intros [A B]. split; [rewrite app_length; lia|]. rewrite rd_app; assumption. Qed.
Lemma read_ok h a n : holds h a n -> read_n h a n = Some (rd h a).
Proof. intros [A B]. unfold read_n. change (nth_error h a) with (content h a). rewrite (rd_content h a A). cbn [obind]. rewrite B, Nat.leb_refl, <- B, firstn_all. reflexivity. Qed.
Lemma copy_ok h a n : holds h a n -> copy_n h a n = Some (h ++ [rd h a], length h).
Proof. intros H. unfold copy_n. rewrite (read_ok h a n H). reflexivity. Qed.
Lemma map_rd_app h g l : (forall a, In a l -> a < length h) -> map (rd (h ++ g)) l = map (rd h) l.
Proof. intros H. apply map_ext_in. intros a Ha. apply rd_app, H, Ha. Qed.
Lemma copies_ok l n : forall h, (forall a, In a l -> holds h a n) -> copies h l n = Some (h ++ map (rd h) l, seq (length h) (length l)).
Proof.
  induction l as [|a l IH]; intros h H; cbn [copies map length seq]; [rewrite app_nil_r; reflexivity|]. rewrite (copy_ok h a n) by (apply H; left; reflexivity). cbn [obind fst snd]. rewrite IH by (intros b Hb; apply holds_app, H; right; exact Hb). cbn [obind fst snd].
  rewrite (map_rd_app h) by (intros b Hb; apply (H b); right; exact Hb). rewrite <- app_assoc, app_length. cbn [length app]. rewrite Nat.add_1_r. reflexivity.
Qed.
(** ** rounds *)
Definition arrays_td (t : td) : list nat := t_rri t :: t_tri t :: t_nlms t :: t_rba t.
Definition arrays_tds (l : list td) : list nat := concat (map arrays_td l).
Definition wf_td (h : heap) (t : td) : Prop :=
  holds h (t_rri t) (t_rld t) /\ holds h (t_tri t) (t_tld t) /\ holds h (t_nlms t) (t_nlm t) /\ length (t_rba t) = t_tld t / 2 /\ forall a, In a (t_rba t) -> holds h a (nlrba (t_rld t)).
Definition same_td (t t' : td) : Prop := t_rld t' = t_rld t /\ t_tld t' = t_tld t /\ t_nlm t' = t_nlm t /\ length (t_rba t') = length (t_rba t).
Lemma wf_td_app h g t : wf_td h t -> wf_td (h ++ g) t.
Proof. intros (A & B & C & D & E). split; [apply holds_app, A|]. split; [apply holds_app, B|]. split; [apply holds_app, C|]. split; [exact D|]. intros a Ha. apply holds_app, E, Ha. Qed.
Lemma wf_td_in h t a : wf_td h t -> In a (arrays_td t) -> a < length h.
Proof. intros (A & B & C & D & E) [<-|[<-|[<-|H]]]; [apply A|apply B|apply C|apply (E a H)]. Qed.
Lemma dup_td_ok h t : wf_td h t -> exists t', dup_td h t = Some (h ++ map (rd h) (arrays_td t), t') /\ arrays_td t' = seq (length h) (length (arrays_td t)) /\ same_td t t'.
Proof.
  intros W. pose proof W as (A & B & C & D & E). unfold dup_td. rewrite (copy_ok h _ _ A). cbn [obind fst snd]. rewrite (copy_ok _ _ _ (holds_app h _ _ _ B)). cbn [obind fst snd]. rewrite (copy_ok _ _ _ (holds_app _ _ _ _ (holds_app h _ _ _ C))). cbn [obind fst snd]. rewrite D, Nat.leb_refl, <- D, firstn_all. cbn [negb].
  rewrite copies_ok by (intros a Ha; apply holds_app, holds_app, holds_app, E, Ha). cbn [obind fst snd]. rewrite <- !app_assoc. cbn [app]. eexists. split; [|split].
  - do 3 f_equal. unfold arrays_td. cbn [map]. f_equal. f_equal; [apply rd_app; apply B|]. f_equal; [change [rd h (t_rri t); rd (h ++ [rd h (t_rri t)]) (t_tri t)] with ([rd h (t_rri t); rd (h ++ [rd h (t_rri t)]) (t_tri t)]); apply rd_app; apply C|]. apply map_rd_app. intros a Ha. apply (E a Ha).
  - unfold arrays_td. cbn [t_rri t_tri t_nlms t_rba length seq]. rewrite !app_length. cbn [length]. f_equal. f_equal; [lia|]. f_equal; [lia|]. f_equal. lia.
  - unfold same_td. cbn [t_rld t_tld t_nlm t_rba]. rewrite seq_length. auto.
Qed.
Lemma dup_tds_ok l : forall h, (forall t, In t l -> wf_td h t) -> exists l', dup_tds h l = Some (h ++ map (rd h) (arrays_tds l), l') /\ arrays_tds l' = seq (length h) (length (arrays_tds l)) /\ Forall2 same_td l l'.
Proof.
  induction l as [|t l IH]; intros h H; [exists []; cbn; rewrite app_nil_r; auto|]. destruct (dup_td_ok h t (H t (or_introl eq_refl))) as (t' & E1 & E2 & E3). destruct (IH (h ++ map (rd h) (arrays_td t))) as (l' & F1 & F2 & F3); [intros u Hu; apply wf_td_app, H; right; exact Hu|].
  exists (t' :: l'). cbn [dup_tds]. rewrite E1. cbn [obind fst snd]. rewrite F1. cbn [obind fst snd]. split; [|split].
  - do 2 f_equal. unfold arrays_tds. cbn [map concat]. rewrite map_app, <- app_assoc. do 2 f_equal. apply map_rd_app. intros a Ha. apply in_concat in Ha as (w & Hw & Ha). apply in_map_iff in Hw as (u & <- & Hu). apply (wf_td_in h u a); [apply H; right; exact Hu|exact Ha].
  - unfold arrays_tds in *. cbn [map concat]. rewrite E2, F2, !app_length, map_length, <- seq_app. reflexivity.
  - constructor; assumption.
Qed.
(** ** the tracer *)
Definition used (t : trace) : list td := firstn (tr_ltd t) (tr_td t).
(** the arrays that are copied, without the masks *)
Definition arrays (t : trace) : list nat := tr_lmps t :: arrays_tds (used t).
Definition wf_trace (h : heap) (t : trace) : Prop :=
  holds h (tr_lmps t) (tr_lml t) /\ holds h (tr_lm t) (tr_lml t) /\ tr_ltd t <= length (tr_td t) /\ (forall u, In u (used t) -> wf_td h u) /\ ~ In (tr_lm t) (arrays t).
Definition zeroed (h : heap) (t : trace) : heap := firstn (tr_lm t) h ++ repeat 0%Z (tr_lml t) :: skipn (S (tr_lm t)) h.
Lemma set_ok h a v : a < length h -> set_nth h a v = Some (firstn a h ++ v :: skipn (S a) h).
Proof. revert a. induction h as [|x h IH]; intros a H; [cbn in H; lia|]. destruct a as [|a]; [reflexivity|]. cbn [set_nth firstn skipn app]. rewrite IH by (cbn in H; lia). reflexivity. Qed.
Lemma zeroed_len h t : tr_lm t < length h -> length (zeroed h t) = length h.
Proof. intros H. unfold zeroed. rewrite app_length, firstn_length. cbn [length]. rewrite skipn_length. lia. Qed.
Lemma zeroed_rd h t a : tr_lm t < length h -> a <> tr_lm t -> rd (zeroed h t) a = rd h a.
Proof.
  intros H N. unfold zeroed, rd. destruct (Nat.lt_ge_cases a (tr_lm t)) as [L|L].
  - rewrite app_nth1 by (rewrite firstn_length; lia). rewrite <- (firstn_skipn (tr_lm t) h) at 2. rewrite app_nth1 by (rewrite firstn_length; lia). reflexivity.
  - rewrite app_nth2 by (rewrite firstn_length; lia). rewrite firstn_length. replace (a - Nat.min (tr_lm t) (length h)) with (S (a - S (tr_lm t))) by lia. cbn [nth]. rewrite <- (firstn_skipn (S (tr_lm t)) h) at 2. rewrite app_nth2 by (rewrite firstn_length; lia). rewrite firstn_length. f_equal. lia.
Qed.
Lemma zeroed_lm h t : tr_lm t < length h -> rd (zeroed h t) (tr_lm t) = repeat 0%Z (tr_lml t).
Proof. intros H. unfold zeroed, rd. rewrite app_nth2 by (rewrite firstn_length; lia). rewrite firstn_length. replace (tr_lm t - Nat.min (tr_lm t) (length h)) with 0 by lia. reflexivity. Qed.
Lemma zeroed_app h g t : tr_lm t < length h -> zeroed (h ++ g) t = zeroed h t ++ g.
Proof. intros H. unfold zeroed. rewrite firstn_app, skipn_app. replace (tr_lm t - length h) with 0 by lia. replace (S (tr_lm t) - length h) with 0 by lia. cbn [firstn skipn]. rewrite app_nil_r, <- app_assoc. reflexivity. Qed.
Definition all_arrays (t : trace) : list nat := tr_lmps t :: tr_lm t :: arrays_tds (tr_td t).
Definition dup_heap (h : heap) (t : trace) : heap := zeroed h t ++ rd h (tr_lmps t) :: repeat 0%Z (tr_lml t) :: map (rd h) (arrays_tds (used t)).
Lemma arrays_in h t a : wf_trace h t -> In a (arrays_tds (used t)) -> a < length h.
Proof. intros (_ & _ & _ & W & _) H. apply in_concat in H as (w & Hw & Ha). apply in_map_iff in Hw as (u & <- & Hu). apply (wf_td_in h u a (W u Hu) Ha). Qed.
Lemma wf_td_eq h h' t : length h = length h' -> (forall a, In a (arrays_td t) -> rd h' a = rd h a) -> wf_td h t -> wf_td h' t.
Proof.
  intros L R (A & B & C & D & E). unfold wf_td, holds in *. rewrite <- L. rewrite !R by (unfold arrays_td; cbn; auto). split; [exact A|]. split; [exact B|]. split; [exact C|]. split; [exact D|]. intros a Ha. rewrite R by (unfold arrays_td; cbn; auto). apply (E a); assumption.
Qed.
Lemma dup_one_ok h t : wf_trace h t -> exists t', dup_one h t = Some (dup_heap h t, t') /\ all_arrays t' = seq (length h) (2 + length (arrays_tds (used t))) /\
  tr_ltd t' = tr_ltd t /\ tr_std t' = tr_std t /\ tr_lml t' = tr_lml t /\ Forall2 same_td (used t) (tr_td t').
Proof.
  intros W. pose proof W as (A & [B1 B2] & C & D & E). unfold dup_one. rewrite (copy_ok h _ _ A). cbn [obind fst snd alloc]. set (h0 := (h ++ [rd h (tr_lmps t)]) ++ [repeat 0%Z (tr_lml t)]).
  assert (E0 : h0 = h ++ [rd h (tr_lmps t); repeat 0%Z (tr_lml t)]) by (unfold h0; rewrite <- app_assoc; reflexivity). assert (M : memcpy h0 (tr_lm t) (length (h ++ [rd h (tr_lmps t)])) (tr_lml t) = Some (zeroed h0 t)).
  { unfold memcpy. assert (Hn : holds h0 (length (h ++ [rd h (tr_lmps t)])) (tr_lml t)) by (unfold h0; generalize (h ++ [rd h (tr_lmps t)]); intros g; split; [rewrite app_length; cbn [length]; lia|]; unfold rd; rewrite app_nth2 by lia; rewrite Nat.sub_diag; apply repeat_length).
    rewrite (read_ok _ _ _ Hn). cbn [obind]. change (nth_error h0 (tr_lm t)) with (content h0 (tr_lm t)). rewrite rd_content by (rewrite E0, app_length; lia). cbn [obind]. assert (R0 : rd h0 (tr_lm t) = rd h (tr_lm t)) by (rewrite E0; apply rd_app; exact B1). rewrite R0, B2, Nat.leb_refl. rewrite skipn_all2 by (rewrite B2; lia). rewrite app_nil_r.
    rewrite set_ok by (rewrite E0, app_length; lia). unfold zeroed. do 2 f_equal. unfold h0. generalize (h ++ [rd h (tr_lmps t)]). intros g. unfold rd. rewrite app_nth2 by lia. rewrite Nat.sub_diag. reflexivity. }
  rewrite M. cbn [obind]. rewrite (proj2 (Nat.leb_le _ _) C). cbn [negb]. fold (used t). rewrite E0, (zeroed_app h _ t B1). set (h1 := zeroed h t ++ [rd h (tr_lmps t); repeat 0%Z (tr_lml t)]).
  assert (RN : forall a, In a (arrays_tds (used t)) -> a <> tr_lm t /\ a < length h) by (intros a Ha; split; [intros ->; apply E; right; exact Ha|apply (arrays_in h t a W Ha)]).
  destruct (dup_tds_ok (used t) h1) as (l' & F1 & F2 & F3).
  { intros u Hu. unfold h1. apply wf_td_app. apply (wf_td_eq h); [symmetry; apply zeroed_len; exact B1| |apply D, Hu]. intros a Ha. apply zeroed_rd; [exact B1|]. apply RN. apply in_concat. exists (arrays_td u). split; [apply in_map; exact Hu|exact Ha]. }
  assert (HH : h1 ++ map (rd h1) (arrays_tds (used t)) = dup_heap h t).
  { unfold dup_heap, h1. rewrite <- app_assoc. cbn [app]. do 3 f_equal. apply map_ext_in. intros a Ha. destruct (RN a Ha) as [N L]. rewrite rd_app by (rewrite zeroed_len; [exact L|exact B1]). apply zeroed_rd; [exact B1|exact N]. }
  rewrite F1, HH. cbn [obind fst snd]. eexists. split; [reflexivity|]. cbn [tr_ltd tr_std tr_lml tr_td tr_lm tr_lmps]. split; [|auto]. unfold all_arrays. cbn [tr_lmps tr_lm tr_td]. rewrite F2. unfold h1. rewrite !app_length, (zeroed_len h t B1). cbn [length seq Nat.add]. f_equal. f_equal; [lia|]. f_equal. lia.
Qed.
Lemma dup_heap_len h t : wf_trace h t -> length (dup_heap h t) = length h + (2 + length (arrays_tds (used t))).
Proof. intros (_ & [B _] & _). unfold dup_heap. rewrite app_length, (zeroed_len h t B). cbn [length]. rewrite map_length. lia. Qed.
Lemma dup_heap_old h t a : wf_trace h t -> a < length h -> a <> tr_lm t -> rd (dup_heap h t) a = rd h a.
Proof. intros (_ & [B _] & _) L N. unfold dup_heap. rewrite rd_app by (rewrite zeroed_len; assumption). apply zeroed_rd; assumption. Qed.
Lemma dup_heap_wf h t : wf_trace h t -> wf_trace (dup_heap h t) t.
Proof.
  intros W. pose proof W as ([A1 A2] & [B1 B2] & C & D & E). assert (G : forall a, a < length h -> a < length (dup_heap h t)) by (intros a; rewrite (dup_heap_len h t W); lia). split; [split; [apply G, A1|]; rewrite dup_heap_old; auto; intros Q; apply E; left; exact Q|]. split; [split; [apply G, B1|]; unfold dup_heap; rewrite rd_app by (rewrite zeroed_len; assumption); rewrite zeroed_lm by exact B1; apply repeat_length|]. split; [exact C|]. split; [|exact E].
  intros u Hu. assert (R : forall a, In a (arrays_td u) -> rd (dup_heap h t) a = rd h a /\ a < length h).
  { intros a Ha. pose proof (wf_td_in h u a (D u Hu) Ha). split; [|assumption]. apply dup_heap_old; auto. intros ->. apply E. right. apply in_concat. exists (arrays_td u). split; [apply in_map; exact Hu|exact Ha]. }
  destruct (D u Hu) as (P1 & P2 & P3 & P4 & P5). unfold wf_td, holds in *. rewrite !(fun a H => proj1 (R a H)) by (unfold arrays_td; cbn; auto). split; [split; [apply G|]; apply P1|]. split; [split; [apply G|]; apply P2|]. split; [split; [apply G|]; apply P3|]. split; [exact P4|]. intros a Ha. rewrite (fun H => proj1 (R a H)) by (unfold arrays_td; cbn; auto). split; [apply G; apply (P5 a Ha)|apply (P5 a Ha)].
Qed.
Definition copy_of (t t' : trace) : Prop := tr_ltd t' = tr_ltd t /\ tr_std t' = tr_std t /\ tr_lml t' = tr_lml t /\ Forall2 same_td (used t) (tr_td t').
Lemma dup_tracer_ok n : forall h t, wf_trace h t -> exists h' ts, dup_tracer n h t = Some (h', ts) /\ length ts = n /\ wf_trace h' t /\ length h <= length h' /\
  (forall a, a < length h -> a <> tr_lm t -> rd h' a = rd h a) /\ concat (map all_arrays ts) = seq (length h) (length h' - length h) /\
  (forall t', In t' ts -> copy_of t t' /\ map (rd h') (tr_lmps t' :: arrays_tds (tr_td t')) = map (rd h) (arrays t) /\ rd h' (tr_lm t') = repeat 0%Z (tr_lml t)) /\ (n <> 0 \/ rd h (tr_lm t) = repeat 0%Z (tr_lml t) -> rd h' (tr_lm t) = repeat 0%Z (tr_lml t)).
Proof.
  induction n as [|n IH]; intros h t W.
  - exists h, []. cbn [dup_tracer map concat length]. rewrite Nat.sub_diag. split; [reflexivity|]. split; [reflexivity|]. split; [exact W|]. split; [lia|]. split; [reflexivity|]. split; [reflexivity|]. split; [intros t' []|intros [N|N]; [congruence|exact N]].
  - destruct (dup_one_ok h t W) as (t1 & E1 & E2 & E3 & E4 & E5 & E6). pose proof (dup_heap_wf h t W) as W1. pose proof (dup_heap_len h t W) as L1. destruct (IH (dup_heap h t) t W1) as (h' & ts & F1 & F2 & F3 & F4 & F5 & F6 & F7 & F8). exists h', (t1 :: ts). cbn [dup_tracer]. rewrite E1. cbn [obind fst snd]. rewrite F1. cbn [obind fst snd].
    pose proof W as ([A1 A2] & [B1 B2] & C & D & E). assert (OLD : forall a, a < length h -> a <> tr_lm t -> rd h' a = rd h a) by (intros a La Na; rewrite F5 by (lia || assumption); apply dup_heap_old; assumption).
    assert (NEW : forall a, length h <= a < length (dup_heap h t) -> rd h' a = rd (dup_heap h t) a) by (intros a La; apply F5; lia).
    assert (T1 : map (rd h') (all_arrays t1) = rd h (tr_lmps t) :: repeat 0%Z (tr_lml t) :: map (rd h) (arrays_tds (used t))).
    { rewrite E2. transitivity (map (rd (dup_heap h t)) (seq (length h) (2 + length (arrays_tds (used t))))); [apply map_ext_in; intros a Ha; apply in_seq in Ha; apply NEW; lia|]. set (V := rd h (tr_lmps t) :: repeat 0%Z (tr_lml t) :: map (rd h) (arrays_tds (used t))). assert (LV : 2 + length (arrays_tds (used t)) = length V) by (unfold V; cbn [length]; rewrite map_length; reflexivity). rewrite LV. unfold dup_heap. fold V. rewrite <- (zeroed_len h t B1). generalize (zeroed h t). clear. intros g.
      assert (G : forall W k, map (fun i => nth i (g ++ W) []) (seq (length g + k) (length W - k)) = skipn k W). { intros W. assert (Gk : forall k, k <= length W -> map (fun i => nth i (g ++ W) []) (seq (length g + k) (length W - k)) = skipn k W). { induction k as [k IHk] using (well_founded_induction (Wf_nat.well_founded_ltof _ (fun k => length W - k))). intros Hk. destruct (Nat.eq_dec k (length W)) as [->|N]; [rewrite Nat.sub_diag, skipn_all; reflexivity|]. replace (length W - k) with (S (length W - S k)) by lia. cbn [seq map]. specialize (IHk (S k)). unfold Wf_nat.ltof in IHk. specialize (IHk ltac:(lia) ltac:(lia)). rewrite Nat.add_succ_r in IHk. rewrite IHk. rewrite app_nth2 by lia. replace (length g + k - length g) with k by lia. destruct (nth_error W k) as [x|] eqn:Ex; [|apply nth_error_None in Ex; lia]. rewrite (nth_error_nth W k [] Ex). clear -Ex. revert k Ex. induction W as [|y W IW]; intros k Ex; [destruct k; discriminate|]. destruct k; cbn in *; [congruence|]. apply IW. exact Ex. } intros k. destruct (Nat.le_gt_cases k (length W)); [apply Gk; assumption|]. replace (length W - k) with 0 by lia. rewrite skipn_all2 by lia. reflexivity. }
      specialize (G V 0). rewrite Nat.add_0_r, Nat.sub_0_r in G. exact G. }
    assert (T2 : rd h' (tr_lmps t1) = rd h (tr_lmps t) /\ rd h' (tr_lm t1) = repeat 0%Z (tr_lml t) /\ map (rd h') (arrays_tds (tr_td t1)) = map (rd h) (arrays_tds (used t))) by (unfold all_arrays in T1; cbn [map] in T1; injection T1 as Q1 Q2 Q3; auto). destruct T2 as (T2 & T3 & T4).
    split; [reflexivity|]. split; [cbn [length]; rewrite F2; reflexivity|]. split; [exact F3|]. split; [lia|]. split; [exact OLD|]. split; [|split].
    + cbn [map concat]. rewrite E2, F6, L1. replace (length h' - length h) with ((2 + length (arrays_tds (used t))) + (length h' - (length h + (2 + length (arrays_tds (used t)))))) by lia. rewrite (seq_app (2 + length (arrays_tds (used t)))). reflexivity.
    + intros t' [<-|Ht'].
      * split; [unfold copy_of; auto|]. split; [unfold arrays; cbn [map]; rewrite T2, T4; reflexivity|exact T3].
      * destruct (F7 t' Ht') as (G1 & G2 & G3). split; [exact G1|]. split; [|exact G3]. rewrite G2. apply map_ext_in. intros a Ha. apply dup_heap_old; [exact W| |intros ->; exact (E Ha)]. destruct Ha as [<-|Ha]; [exact A1|apply (arrays_in h t a W Ha)].
    + intros _. apply F8. right. unfold dup_heap. rewrite rd_app by (rewrite zeroed_len; assumption). apply zeroed_lm. exact B1.
Qed.
