(** C83: the command line. *)
From Coq Require Import ZArith Arith List Bool Ascii String Lia.
From Verif Require Import ModInvModel ParseSpec ParseModel CliSpec CliModel CliProofs.
Import ListNotations.
Open Scope Z_scope.
Definition words_of (l : list string) : list str := map list_ascii_of_string l.

(** Every command line is one sequence of occurrences, and the program does what it asks for; what it asks for is determined. *)
Theorem C83_command_line : forall args,
  exists l, words args l /\ (forall l', words args l' -> l' = l) /\ asks l (getoptions args) /\
    forall o, asks l o -> same_asked o (getoptions args).
Proof.
  intros args. exists (getopt None args). pose proof (getopt_words _ args (le_n _)) as W. split; [exact W|]. split; [intros l' H; apply words_unique; exact H|].
  pose proof (asks_getoptions args _ W) as A. split; [exact A|]. intros o H. exact (asks_unique _ _ _ H A).
Qed.
Print Assumptions C83_command_line.
(** a command line with a cluster, an argument in the same word, a repeated option, an operand between and a value out of range *)
Example C83_command_line_ex :
  match getoptions (words_of ["-iSg"; "7"; "x"; "-l44"; "-f"; "in"; "-p"; "-5"; "-l"; " 2z"; "--"; "-h"]%string) with
  | Run s f => s v_gb = 1 /\ s v_sat = 1 /\ s v_print = 2 /\ s v_la = 2 /\ s v_prec = 128 /\ s v_gener = 2 /\ f_in f = Some (list_ascii_of_string "in") /\ f_out f = None
  | _ => False
  end.
Proof. vm_compute. repeat split; reflexivity. Qed.
Example C83_command_line_stop : getoptions (words_of ["-z"; "-ih"; "-V"]%string) = Help /\ getoptions (words_of ["-z"; "-g"; "2"]%string) = NoFile /\ getoptions (words_of ["-zf"; "a"]%string) = Invalid.
Proof. vm_compute. auto. Qed.

(** The order of the options: two neighbours with different letters may be exchanged, unless they stop the program. *)
Definition letter (x : occ) : option ascii := match x with Bad => None | Flag c => Some c | Opt c _ => Some c end.
Theorem C83_order : forall args args' l1 x y l2,
  words args (l1 ++ x :: y :: l2) -> words args' (l1 ++ y :: x :: l2) -> letter x <> letter y ->
  ~ (exists c c', x = Flag c /\ y = Flag c' /\ (c = "h" \/ c = "V")%char /\ (c' = "h" \/ c' = "V")%char) ->
  same_asked (getoptions args) (getoptions args').
Proof.
  intros args args' l1 x y l2 W W' D NS. pose proof (asks_getoptions _ _ W) as A. pose proof (asks_getoptions _ _ W') as A'.
  set (l := l1 ++ x :: y :: l2) in *. set (l' := l1 ++ y :: x :: l2) in *.
  assert (M : forall o, In o l -> In o l'). { intros o H. apply in_app_iff in H as [H|[H|[H|H]]]; apply in_or_app; cbn; auto. }
  assert (M' : forall o, In o l' -> In o l). { intros o H. apply in_app_iff in H as [H|[H|[H|H]]]; apply in_or_app; cbn; auto. }
  assert (LF : forall c, lastf c l = lastf c l').
  { intros c. unfold l, l'. clear - D. induction l1 as [|o l1 IH]; cbn [app lastf].
    - destruct (lastf c l2); [reflexivity|]. destruct x as [|cx|cx ax], y as [|cy|cy ay]; cbn; try reflexivity; try (destruct (Ascii.eqb _ c); reflexivity).
      destruct (Ascii.eqb_spec cx c), (Ascii.eqb_spec cy c); try reflexivity. destruct D. cbn. congruence.
    - rewrite IH. reflexivity. }
  assert (LA : forall c a, last_arg c l a -> last_arg c l' a). { intros c a H. apply last_unique in H. rewrite H, LF. apply lastf_last. }
  enough (asks l' (getoptions args)) by (eapply asks_unique; eassumption).
  assert (ST : forall c, c = "h"%char \/ c = "V"%char -> forall m1 m2, l = m1 ++ Flag c :: m2 -> (forall z, In z m1 -> ~ (z = Flag "h" \/ z = Flag "V")) ->
    exists n1 n2, l' = n1 ++ Flag c :: n2 /\ forall z, In z n1 -> ~ (z = Flag "h" \/ z = Flag "V")).
  { intros c Hc m1 m2 E N. unfold l in E. assert (P : forall n1 n2, l' = n1 ++ Flag c :: n2 -> (forall z, In z n1 -> ~ (z = Flag "h" \/ z = Flag "V")) ->
      exists n1 n2, l' = n1 ++ Flag c :: n2 /\ forall z, In z n1 -> ~ (z = Flag "h" \/ z = Flag "V")) by (intros n1 n2 En Nn; exists n1, n2; auto).
    assert (SP : forall (a b : list occ) m1, a ++ b = m1 ++ Flag c :: m2 -> (exists n, m1 = a ++ n /\ b = n ++ Flag c :: m2) \/ exists n, a = m1 ++ Flag c :: n).
    { intros a. induction a as [|u a IH]; intros b [|w k] Ek; cbn [app] in Ek.
      - left. exists []. auto.
      - left. exists (w :: k). auto.
      - injection Ek as -> _. right. exists a. reflexivity.
      - injection Ek as -> Ek. destruct (IH b k Ek) as [(n & -> & ->)|(n & ->)]; [left; exists n; auto|right; exists n; reflexivity]. }
    destruct (SP l1 (x :: y :: l2) m1 E) as [(n & -> & En)|(n & ->)].
    - assert (N1 : forall z, In z l1 -> ~ (z = Flag "h" \/ z = Flag "V")) by (intros z Hz; apply N, in_or_app; auto).
      destruct n as [|u [|w n]]; cbn [app] in En.
      + injection En as -> _. apply (P (l1 ++ [y]) l2); [unfold l'; rewrite <- app_assoc; reflexivity|]. intros z Hz. apply in_app_iff in Hz as [Hz|[<-|[]]]; [apply N1; exact Hz|].
        intros Hy. apply NS. destruct Hy as [->| ->]; exists c; eexists; split; try reflexivity; (split; [reflexivity|]); auto.
      + injection En as -> -> _. apply (P l1 (u :: l2)); [reflexivity|exact N1].
      + injection En as -> -> En. apply (P (l1 ++ w :: u :: n) m2); [unfold l'; rewrite En, <- app_assoc; reflexivity|]. intros z Hz. apply N. apply in_app_iff in Hz as [Hz|[Hz|[Hz|Hz]]]; apply in_or_app; cbn; auto.
    - apply (P m1 (n ++ y :: x :: l2)); [unfold l'; rewrite <- app_assoc; reflexivity|exact N]. }
  destruct (getoptions args) as [| | | |s f]; cbn [asks] in A |- *.
  - destruct A as (m1 & m2 & E & N). apply (ST "h"%char ltac:(auto) m1 m2 E N).
  - destruct A as (m1 & m2 & E & N). apply (ST "V"%char ltac:(auto) m1 m2 E N).
  - destruct A as (N & Hf & HF). split; [intros z Hz; apply N, M', Hz|]. split; apply LA; assumption.
  - destruct A as (N & (a & Hf) & B). split; [intros z Hz; apply N, M', Hz|]. split; [exists a; destruct Hf; auto|auto].
  - destruct A as (N & (a & Hf) & B & V & Q1 & Q2 & Q3 & Q4). split; [intros z Hz; apply N, M', Hz|]. split; [exists a; destruct Hf; auto|]. split; [auto|]. split; [|repeat split; apply LA; assumption].
    intros v. specialize (V v). unfold setting in *. destruct (kind_of v) as [c d lo be hi ab|c].
    + destruct V as [[V1 V2]|(t & z & V1 & V2)]; [left; split; [apply LA; exact V1|exact V2]|right; exists t, z; split; [apply LA; exact V1|exact V2]].
    + assert (OC : occurs c l <-> occurs c l'). { unfold occurs. split; (intros [H|[b H]]; [left|right; exists b]; auto). }
      destruct V as [[V1 V2]|[V1 V2]]; [left|right]; (split; [tauto|exact V2]).
Qed.
Print Assumptions C83_order.
Example C83_order_ex : words (words_of ["-f"; "a"; "-g2"]%string) [Opt "f" (list_ascii_of_string "a"); Opt "g" ["2"%char]] /\
  words (words_of ["-g"; "2"; "-fa"]%string) [Opt "g" ["2"%char]; Opt "f" (list_ascii_of_string "a")].
Proof.
  split; [exact (getopt_words _ (words_of ["-f"; "a"; "-g2"]%string) (le_n _))|exact (getopt_words _ (words_of ["-g"; "2"; "-fa"]%string) (le_n _))].
Qed.

(** A number that fits into 32 bits is taken as it is written; without that, this is false. *)
Theorem C83_numbers : forall a z v, reads a z -> - 2 ^ 31 <= z < 2 ^ 31 -> value a v -> v = z.
Proof.
  intros a z v R B V. apply value_num in V. rewrite V. unfold num. rewrite (reads_strtol a z R). symmetry. apply holds_int32. unfold holds. split; [exact B|]. exists 0. lia.
Qed.
Print Assumptions C83_numbers.
Theorem C83_numbers_refuted : exists a, reads a 4294967298 /\ value a 2 /\
  exists s f, getoptions (words_of ["-ff"; "-t"]%string ++ [a]) = Run s f /\ s v_threads = 2.
Proof.
  set (a := list_ascii_of_string "4294967298"). assert (R : reads a 4294967298).
  { assert (E : dval a = 4294967298) by (vm_compute; reflexivity). assert (D : number a) by (split; [discriminate|vm_compute; reflexivity]). clearbody a.
    rewrite <- E. rewrite <- (app_nil_r a) at 1. change (a ++ []) with ([] ++ [] ++ a ++ []). 
    apply (reads_num [] [] a []); [reflexivity|exact D|exact Logic.I|left; reflexivity]. }
  assert (N : num a = 2) by (vm_compute; reflexivity).
  exists a. split; [exact R|]. split; [apply value_num; symmetry; exact N|].
  assert (G : exists s f, getoptions (words_of ["-ff"; "-t"]%string ++ [a]) = Run s f /\ s v_threads = num a).
  { unfold getoptions. replace (getopt None (words_of ["-ff"; "-t"]%string ++ [a])) with [Opt "f" ["f"%char]; Opt "t" a] by (vm_compute; reflexivity).
    generalize a. intros a'. eexists. eexists. split; [cbn -[num]; reflexivity|]. cbn -[num]. reflexivity. }
  rewrite N in G. exact G.
Qed.
Print Assumptions C83_numbers_refuted.

(** The help text shows -I without an argument; the option takes the next word, whatever it is: here the file is not found. *)
Theorem C83_isolate_refuted : forall a, (forall s, a = dash :: s -> s = []) -> getoptions (words_of ["-I"; "-f"]%string ++ [a]) = NoFile.
Proof.
  intros a H. unfold getoptions. assert (E : getopt None (words_of ["-I"; "-f"]%string ++ [a]) = [Opt "I" (list_ascii_of_string "-f")]).
  { change (getopt None (words_of ["-I"; "-f"]%string ++ [a])) with (Opt "I" (list_ascii_of_string "-f") :: getopt None [a]). rewrite (getopt_operand a [] H). reflexivity. }
  rewrite E. reflexivity.
Qed.
Print Assumptions C83_isolate_refuted.

(** The beginning of the program. *)
Lemma str_eqb_spec a b : str_eqb a b = true <-> a = b.
Proof. unfold str_eqb. destruct (list_eq_dec ascii_dec a b); split; congruence. Qed.
(** The input is read as it was on the disk when the output, if there is one, is another file; the output is then empty, all other files
    are as before; the linear algebra is exact for a small characteristic, all other settings are those of the command line. *)
Theorem C83_start : forall d args s f n t i,
  disk_ok d -> getoptions args = Run s f -> f_in f = Some n -> text_of d n = Some t -> read_file t = Some i ->
  match f_out f with
  | None => main d args = Goes (if (0 <? i_char i) && (i_char i <? 2 ^ 15) && (2 <? s v_la) then upd s v_la 2 else s) f i d
  | Some o =>
      if d_write d o then
        ~ same_file d n o -> exists d', main d args = Goes (if (0 <? i_char i) && (i_char i <? 2 ^ 15) && (2 <? s v_la) then upd s v_la 2 else s) f i d' /\
          text_of d' o = Some [] /\ forall m, ~ same_file d m o -> text_of d' m = text_of d m
      else main d args = Ends 1
  end.
Proof.
  intros d args s f n t i OK G Fi T R. unfold main. rewrite G, Fi. assert (CR : can_read d (Some n) = true) by (unfold can_read, text_of in *; destruct (d_file d n); [reflexivity|discriminate]).
  rewrite CR. cbn [negb andb]. destruct (f_out f) as [o|]; [|rewrite T, R; reflexivity].
  unfold clear_file. destruct (d_write d o) eqn:Wr; cbn [negb]; [|reflexivity]. intros NE.
  set (d' := match d_file d o with Some k => _ | None => _ end).
  assert (Same : forall m, ~ same_file d m o -> text_of d' m = text_of d m).
  { intros m Nm. unfold same_file in Nm. unfold d', text_of. destruct (d_file d o) as [k|] eqn:Eo; cbn [d_file d_text].
    - destruct (d_file d m) as [j|] eqn:Em; [|reflexivity]. destruct (Nat.eqb_spec j k); [|reflexivity]. subst j. destruct Nm. right. exists k. auto.
    - destruct (str_eqb m o) eqn:Eq; [apply str_eqb_spec in Eq; destruct Nm; auto|]. destruct (d_file d m) as [j|] eqn:Em; [|reflexivity].
      destruct (Nat.eqb_spec j (d_next d)); [|reflexivity]. pose proof (OK m j Em). lia. }
  exists d'. rewrite (Same n NE), T, R. split; [reflexivity|]. split; [|exact Same].
  unfold d', text_of. destruct (d_file d o) as [k|] eqn:Eo; cbn [d_file d_text].
  - rewrite Eo. rewrite Nat.eqb_refl. reflexivity.
  - rewrite (proj2 (str_eqb_spec o o) eq_refl), Nat.eqb_refl. reflexivity.
Qed.
Print Assumptions C83_start.
Definition disk0 : disk := {| d_file := fun n => if str_eqb n ["a"%char] then Some 0%nat else if str_eqb n ["b"%char] then Some 1%nat else None;
  d_text := fun k => match k with 0%nat => list_ascii_of_string "x,y" ++ [nl] ++ list_ascii_of_string "101" ++ [nl] ++ list_ascii_of_string "x^2-y," ++ [nl] ++ list_ascii_of_string "x+3*y" ++ [nl] | _ => list_ascii_of_string "old" end; d_next := 2; d_write := fun _ => true |}.
Example C83_start_ex : match main disk0 (words_of ["-f"; "a"; "-l44"; "-o"; "b"]%string) with
  | Goes s f i d => s v_la = 2 /\ i_char i = 101 /\ text_of d ["b"%char] = Some [] /\ text_of d ["a"%char] = text_of disk0 ["a"%char] | _ => False end.
Proof. vm_compute. repeat split; reflexivity. Qed.

(** When the two names are those of one file, the input is erased before it is read: nothing is computed. *)
Theorem C83_same_file_refuted : forall d args s f n o t,
  disk_ok d -> getoptions args = Run s f -> f_in f = Some n -> f_out f = Some o -> text_of d n = Some t -> same_file d n o -> d_write d o = true ->
  exists d', main d args = Lost d' /\ text_of d' n = Some [].
Proof.
  intros d args s f n o t OK G Fi Fo T SF Wr. unfold main. rewrite G, Fi, Fo. assert (CR : exists k, d_file d n = Some k) by (unfold text_of in T; destruct (d_file d n) as [k|]; [exists k; reflexivity|discriminate]).
  destruct CR as [k Ek]. unfold can_read. rewrite Ek. cbn [negb andb]. unfold clear_file. rewrite Wr. cbn [negb].
  assert (Eo : d_file d o = Some k) by (destruct SF as [<-|(j & J1 & J2)]; congruence). rewrite Eo. unfold text_of at 1. cbn [d_file d_text]. rewrite Ek, Nat.eqb_refl.
  change (read_file []) with (@None input). eexists. split; [reflexivity|]. unfold text_of. cbn [d_file d_text]. rewrite Ek, Nat.eqb_refl. reflexivity.
Qed.
Print Assumptions C83_same_file_refuted.
Example C83_same_file_ex : match main disk0 (words_of ["-f"; "a"; "-oa"]%string) with Lost d => text_of d ["a"%char] = Some [] | _ => False end.
Proof. vm_compute. reflexivity. Qed.

(** The binary input is opened to see that it exists; alone, or with a wrong -f, it leads to the reading of a file that is not there. *)
Theorem C83_binary_refuted : forall d args s f b t,
  getoptions args = Run s f -> f_bin f = Some b -> text_of d b = Some t -> f_out f = None ->
  (f_in f = None \/ exists n, f_in f = Some n /\ text_of d n = None) -> main d args = Lost d.
Proof.
  intros d args s f b t G Fb T Fo H. unfold main. rewrite G, Fb, Fo. assert (CR : can_read d (Some b) = true) by (unfold can_read, text_of in *; destruct (d_file d b); [reflexivity|discriminate]).
  rewrite CR. cbn [negb]. rewrite andb_false_r. destruct H as [->|(n & -> & ->)]; reflexivity.
Qed.
Print Assumptions C83_binary_refuted.
Example C83_binary_ex : main disk0 (words_of ["-F"; "a"]%string) = Lost disk0.
Proof. reflexivity. Qed.
(** Without any readable input, nothing happens: exit code 1, and the output is not touched. *)
Theorem C83_not_found : forall d args s f, getoptions args = Run s f ->
  (forall n, f_in f = Some n \/ f_bin f = Some n -> text_of d n = None) -> main d args = Ends 1.
Proof.
  intros d args s f G H. unfold main. rewrite G.
  assert (K : forall m, (m = f_in f \/ m = f_bin f) -> can_read d m = false). { intros m Hm. destruct m as [n|]; [|reflexivity]. assert (Q : text_of d n = None) by (apply H; destruct Hm; auto). unfold can_read, text_of in *. destruct (d_file d n); [discriminate|reflexivity]. }
  rewrite (K (f_in f)), (K (f_bin f)) by auto. reflexivity.
Qed.
Print Assumptions C83_not_found.
Example C83_not_found_ex : main disk0 (words_of ["-fc"; "-ob"]%string) = Ends 1.
Proof. reflexivity. Qed.
