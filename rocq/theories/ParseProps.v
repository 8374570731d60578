(** C36: reading an input file. *)
From Coq Require Import ZArith Arith List Bool Ascii String Lia.
From Verif Require Import ParseSpec ParseModel ParseProofs.
Import ListNotations.
Local Open Scope string_scope.
Local Open Scope list_scope.
Open Scope Z_scope.

(** Every file written in the documented format (one written line per generator, see file_text) for distinct names, a characteristic
    0 < p < 2^31 and polynomials with integer coefficients (as in poly_ff) is read, without an access out of bounds: the names, p, and for
    each term of each polynomial, in their order, its exponents and a representative of its coefficient modulo p. *)
Theorem C36_ff text names p Ps : names <> [] -> names_ok names -> 0 < p < 2 ^ 31 -> file_text text names p Ps ->
  (forall P, In P Ps -> P <> [] /\ (forall t, In t P -> good names t) /\ poly_ff P) ->
  exists i, read_file text = Some i /\ i_names i = names /\ i_char i = p /\ Forall2 (Forall2 (row_ff (List.length names) p)) Ps (i_gens i).
Proof.
  intros NE HN Hp FT HP. apply (file_ok text names p Ps _ poly_ff NE HN ltac:(lia) FT HP). intros P tl HF Ht NP GP. apply line_ff; assumption.
Qed.
Print Assumptions C36_ff.

(** In characteristic zero: exactly the fractions that are written. *)
Theorem C36_qq text names Ps : names <> [] -> names_ok names -> file_text text names 0 Ps ->
  (forall P, In P Ps -> P <> [] /\ forall t, In t P -> good names t) ->
  exists i, read_file text = Some i /\ i_names i = names /\ i_char i = 0 /\ Forall2 (Forall2 (row_qq (List.length names))) Ps (i_gens i).
Proof.
  intros NE HN FT HP. apply (file_ok text names 0 Ps _ (fun _ => True) NE HN ltac:(lia) FT); [intros P H; destruct (HP P H); auto|]. intros P tl _ Ht NP GP. apply line_qq; assumption.
Qed.
Print Assumptions C36_qq.

(** ** cases *)
Definition s (x : string) : str := list_ascii_of_string x.
Definition ex_names : list str := [s "x1"; s "x2"; s "y"].
Definition mk (neg : bool) (c : option (string * option string)) (f : list (nat * option string)) : term :=
  {| t_neg := neg; t_coef := match c with None => None | Some (n, d) => Some (s n, option_map s d) end; t_fac := map (fun f => (fst f, option_map s (snd f))) f |}.
Definition ex_P1 : list term := [mk false None [(0%nat, None)]; mk false (Some ("3", None)) [(1%nat, Some "2"); (2%nat, None)]; mk true (Some ("7", None)) []].
Definition ex_P2 : list term := [mk true (Some ("2", None)) [(2%nat, None)]; mk true (Some ("145", None)) [(0%nat, None); (2%nat, Some "12")]].
Definition ex_us : list string := ["x1+ 3*x2^2*y -7"; "
-2 * y - 145*x1*y^12

"].
Definition ex_text : str := s "x1, x2 ,y
 101
x1+ 3*x2^2*y -7,
-2 * y - 145*x1*y^12

".
Ltac name_tac := split; [reflexivity|reflexivity].
Lemma ex_names_ok : names_ok ex_names.
Proof.
  split.
  - repeat constructor; cbn; intuition discriminate.
  - intros n [<-|[<-|[<-|[]]]]; name_tac.
Qed.
Ltac pad a b := exists (s a), (s b); split; [reflexivity|split; reflexivity].
Lemma ex_file : file_text ex_text ex_names 101 [ex_P1; ex_P2].
Proof.
  exists (s "x1, x2 ,y"), (s " 101"), (join ","%char (map s ex_us)), [s "x1"; s " x2 "; s "y"], (s "101"), (map s ex_us).
  split; [reflexivity|]. split; [cbn; intuition discriminate|]. split; [cbn; intuition discriminate|]. split; [reflexivity|]. split; [constructor; [pad ""%string ""%string|constructor; [pad " "%string " "%string|constructor; [pad ""%string ""%string|constructor]]]|].
  split; [intros r [<-|[<-|[<-|[]]]]; cbn; lia|]. split; [pad " "%string ""%string|]. split; [split; [discriminate|reflexivity]|]. split; [reflexivity|]. split; [reflexivity|]. split; [|vm_compute; reflexivity]. constructor; [vm_compute; reflexivity|constructor; [vm_compute; reflexivity|constructor]].
Qed.
Ltac num_tac := split; [discriminate|reflexivity].
Ltac term_tac :=
  split; [split; [(left; discriminate) || (right; discriminate)|split; [intros n d E; first [discriminate E|injection E as <- <-; split; [num_tac|intros d' E; first [discriminate E|injection E as <-; num_tac]]]|split;
    [intros k e H; cbn in H; repeat (destruct H as [H|H]; [injection H as <- <-; split; [cbn; lia|intros d E; first [discriminate E|injection E as <-; num_tac]]|]); destruct H|repeat constructor; cbn; intuition discriminate]]]
  |split; [intros k d H; cbn in H; repeat (destruct H as [H|H]; [first [discriminate H|injection H as <- <-; vm_compute; reflexivity]|]); destruct H|unfold short; vm_compute; discriminate]].
Lemma ex_good P t : In P [ex_P1; ex_P2] -> In t P -> good ex_names t.
Proof. intros [<-|[<-|[]]] H; cbn [In ex_P1 ex_P2] in H; repeat (destruct H as [<-|H]; [term_tac|]); destruct H. Qed.
Example C36_ff_ex : (exists i, read_file ex_text = Some i /\ i_names i = ex_names /\ i_char i = 101 /\ Forall2 (Forall2 (row_ff 3 101)) [ex_P1; ex_P2] (i_gens i)) /\
  option_map i_gens (read_file ex_text) = Some [[((1, 1), [1; 0; 0]); ((3, 1), [0; 2; 1]); ((94, 1), [0; 0; 0])]; [((99, 1), [0; 0; 1]); ((57, 1), [1; 0; 12])]].
Proof.
  split; [|vm_compute; reflexivity]. apply (C36_ff ex_text ex_names 101 [ex_P1; ex_P2]); [discriminate|exact ex_names_ok|lia|exact ex_file|]. intros P HP. split; [destruct HP as [<-|[<-|[]]]; discriminate|]. split; [intros t; apply ex_good; exact HP|].
  assert (L1 : forall n : str, (n = s "2" \/ n = s "3" \/ n = s "7" \/ n = s "145") -> 0 < dval n < 2 ^ 31) by (intros n [->|[->|[->| ->]]]; vm_compute; split; reflexivity).
  destruct HP as [<-|[<-|[]]]; (split; [intros n d E; first [discriminate E|injection E as <- <-; split; [reflexivity|]; match goal with |- dval ?n < _ /\ _ => specialize (L1 n ltac:(auto)) end; split; [lia|lia]]|]);
    intros u Hu; cbn [In] in Hu; repeat (destruct Hu as [<-|Hu]; [intros n d E; first [discriminate E|injection E as <- <-; split; [reflexivity|]; match goal with |- 0 < dval ?n < _ => specialize (L1 n ltac:(auto)) end; lia]|]); destruct Hu.
Qed.
Definition ex_Q : list term := [mk true (Some ("2", Some "3")) [(0%nat, None)]; mk false None [(1%nat, Some "2")]; mk true (Some ("1", Some "7")) [(0%nat, None); (1%nat, None)]; mk false (Some ("0", None)) [(1%nat, None)]].
Definition ex_text_q : str := s "x,y
0
-2/3*x+y^2-1/7*x*y+0*y
".
Example C36_qq_ex : (exists i, read_file ex_text_q = Some i /\ i_names i = [s "x"; s "y"] /\ i_char i = 0 /\ Forall2 (Forall2 (row_qq 2)) [ex_Q] (i_gens i)) /\
  option_map i_gens (read_file ex_text_q) = Some [[((-2, 3), [1; 0]); ((1, 1), [0; 2]); ((-1, 7), [1; 1]); ((0, 1), [0; 1])]].
Proof.
  split; [|vm_compute; reflexivity]. apply (C36_qq ex_text_q [s "x"; s "y"] [ex_Q]); [discriminate| | |].
  - split; [repeat constructor; cbn; intuition discriminate|intros n [<-|[<-|[]]]; name_tac].
  - exists (s "x,y"), (s "0"), (join ","%char [s "-2/3*x+y^2-1/7*x*y+0*y
"]), [s "x"; s "y"], (s "0"), [s "-2/3*x+y^2-1/7*x*y+0*y
"]. split; [reflexivity|]. split; [cbn; intuition discriminate|]. split; [cbn; intuition discriminate|]. split; [reflexivity|]. split; [constructor; [pad ""%string ""%string|constructor; [pad ""%string ""%string|constructor]]|]. split; [intros r [<-|[<-|[]]]; cbn; lia|]. split; [pad ""%string ""%string|]. split; [split; [discriminate|reflexivity]|]. split; [reflexivity|]. split; [reflexivity|]. split; [constructor; [vm_compute; reflexivity|constructor]|vm_compute; reflexivity].
  - intros P [<-|[]]. split; [discriminate|]. intros t H; cbn [In ex_Q] in H; repeat (destruct H as [<-|H]; [term_tac|]); destruct H.
Qed.

(** ** what the conditions exclude *)
(** README.md l.48: "Polynomials may be multiline". The generators are counted by lines: a polynomial over two lines makes the program
    read an entry of lens that was never written. *)
Theorem C36_multiline_refuted : exists text names P Q, names_ok names /\ (forall t, In t (P ++ Q) -> good names t) /\
  unblank text = unblank (join ","%char names ++ s "11" ++ text_poly names P ++ s "," ++ text_poly names Q) /\ List.length (filter written (lines text)) = 5%nat /\ read_file text = None.
Proof.
  exists (s "x,y
11
x
+1,
y
"), [s "x"; s "y"], [mk false None [(0%nat, None)]; mk false (Some ("1", None)) []], [mk false None [(1%nat, None)]]. split; [split; [repeat constructor; cbn; intuition discriminate|intros n [<-|[<-|[]]]; name_tac]|]. split; [intros t H; cbn [In app] in H; repeat (destruct H as [<-|H]; [term_tac|]); destruct H|]. split; [vm_compute; reflexivity|]. split; vm_compute; reflexivity.
Qed.
(** two generators on one line: an entry of lens is written out of bounds *)
Theorem C36_one_line_refuted : read_file (s "x,y
11
x+1,y
") = None.
Proof. vm_compute; reflexivity. Qed.
(** README.md l.50: "Coefficients can be rational". Modulo p, the denominator is ignored: x/2 is read as x. *)
Theorem C36_fraction_refuted : option_map i_gens (read_file (s "x,y
11
1/2*x+1/3*y,
y
")) = Some [[((1, 1), [1; 0]); ((1, 1), [0; 1])]; [((1, 1), [0; 1])]] /\ ~ (11 | 2 * 1 - 1) /\ ~ (11 | 3 * 1 - 1).
Proof. split; [vm_compute; reflexivity|]. split; intros [k H]; lia. Qed.
(** modulo p, a coefficient zero behind the first term is read as one *)
Theorem C36_zero_refuted : option_map i_gens (read_file (s "x,y
11
x+0*y,
y
")) = Some [[((1, 1), [1; 0]); ((1, 1), [0; 1])]; [((1, 1), [0; 1])]].
Proof. vm_compute; reflexivity. Qed.
(** a repeated variable: only its last exponent; an unknown name and a tabulator: ignored *)
Theorem C36_repeated_refuted : option_map i_gens (read_file (s "x,y
11
x^2*x,
y*z+2
")) = Some [[((1, 1), [1; 0])]; [((1, 1), [0; 1]); ((2, 1), [0; 0])]].
Proof. vm_compute; reflexivity. Qed.
(** modulo p, the first coefficient is reduced modulo 2^32 *)
Theorem C36_large_refuted : option_map i_gens (read_file (s "x
2147483647
4294967297*x
")) = Some [[((1, 1), [1])]] /\ ~ (2147483647 | 4294967297 - 1).
Proof. split; [vm_compute; reflexivity|]. intros [k H]. lia. Qed.
(** a sign "+" before the first term: a position before the text *)
Theorem C36_leading_plus_refuted : read_file (s "x,y
11
+x,
y
") = None.
Proof. vm_compute; reflexivity. Qed.
