(** The command line and the beginning of the program.
    Source: /repo/src/msolve/main.c getoptions l.150-340, main l.343-438; getopt, strtol and fopen of the C library.
    Simplifications: getopt is that of the GNU C library without POSIXLY_CORRECT (operands are skipped, the word of two dashes ends the
    options); the words are those behind the name of the program, without NUL. A setting is a variable of 32 bits, written with the
    lower half of the result of strtol (l.188). fopen of the null pointer, which happens whenever one of -f and -F is missing (l.389,
    l.390), is taken to fail as in the GNU C library, where it is not an error; reading the data from the null pointer (l.423) is Lost.
    The disk is a map of names to files and of files to texts; nobody else changes it, and a name with a file can be read. The text of
    the messages and of the help is not modelled, nor the times. What is done with the settings is the subject of the other models. *)
From Coq Require Import ZArith Arith List Bool Ascii.
From Verif Require Import ModInvModel ParseSpec ParseModel CliSpec.
Import ListNotations.
Open Scope Z_scope.

(** l.184; the letter is followed by a colon if it takes an argument *)
Definition options : str :=
  ["h"; "f"; ":"; "N"; ":"; "F"; ":"; "v"; ":"; "l"; ":"; "t"; ":"; "e"; ":"; "o"; ":"; "O"; ":"; "u"; ":"; "i"; "I"; ":"; "p"; ":"; "P"; ":"; "L"; ":";
   "q"; ":"; "g"; ":"; "c"; ":"; "s"; ":"; "S"; "C"; "r"; ":"; "R"; ":"; "m"; ":"; "M"; ":"; "n"; ":"; "d"; ":"; "V"; "f"; ":"]%char.
(** strchr(options, c) and the character behind: None when c is no option *)
Fixpoint lookup (c : ascii) (o : str) : option bool :=
  match o with
  | [] => None
  | x :: r => if Ascii.eqb x c then Some (match r with y :: _ => Ascii.eqb y ":" | [] => false end) else lookup c r
  end.
Definition option_kind (c : ascii) : option bool := if Ascii.eqb c ":" then None else lookup c options.
(** getopt within one word: what is returned, and the option that takes the next word as its argument *)
Fixpoint letters (s : str) : list occ * option ascii :=
  match s with
  | [] => ([], None)
  | c :: r =>
      match option_kind c with
      | None => let (l, p) := letters r in (Bad :: l, p)
      | Some false => let (l, p) := letters r in (Flag c :: l, p)
      | Some true => match r with [] => ([], Some c) | _ => ([Opt c r], None) end
      end
  end.
(** getopt through all words: the successive results; the question mark is Bad *)
Fixpoint getopt (pend : option ascii) (args : list str) : list occ :=
  match args with
  | [] => match pend with Some _ => [Bad] | None => [] end
  | a :: r =>
      match pend with
      | Some c => Opt c a :: getopt None r
      | None =>
          match a with
          | x :: y :: s =>
              if Ascii.eqb x "-" then
                if Ascii.eqb y "-" && match s with [] => true | _ => false end then []
                else let (l, p) := letters (y :: s) in l ++ getopt p r
              else getopt None r
          | _ => getopt None r
          end
      end
  end.

Definition var_eqb (v w : var) : bool :=
  let i v := match v with v_hts => 0 | v_threads => 1 | v_pairs => 2 | v_elim => 3 | v_la => 4 | v_sig => 5 | v_ht => 6 | v_reduce => 7 | v_print => 8
    | v_trunc => 9 | v_gener => 10 | v_stair => 11 | v_sat => 12 | v_colon => 13 | v_nf => 14 | v_nfm => 15 | v_gb => 16 | v_lift => 17 | v_param => 18
    | v_prec => 19 | v_refine => 20 | v_isol => 21 | v_info => 22 end%nat in Nat.eqb (i v) (i w).
(** l.352-375 *)
Definition defaults (v : var) : Z :=
  match v with
  | v_la => 2 | v_sig => 0 | v_threads => 1 | v_info => 0 | v_hts => 17 | v_pairs => 0 | v_elim => 0 | v_ht => 0 | v_reduce => 1 | v_print => 0
  | v_trunc => 0 | v_gener => 2 | v_stair => 2 | v_sat => 0 | v_colon => 0 | v_nf => 0 | v_nfm => 0 | v_gb => 0 | v_lift => 0 | v_param => 0
  | v_prec => 128 | v_refine => 0 | v_isol => 0
  end.
Definition upd (s : var -> Z) (v : var) (z : Z) : var -> Z := fun w => if var_eqb v w then z else s w.
(** the variables of getoptions: errflag, fflag, the settings, the names *)
Record st := { errflag : nat; fflag : bool; vals : var -> Z; nms : files }.
Definition set_val (x : st) (v : var) (z : Z) : st := {| errflag := errflag x; fflag := fflag x; vals := upd (vals x) v z; nms := nms x |}.
Definition num (a : str) : Z := int32 (strtol a).
Definition set_name (x : st) (b : bool) (f : files) : st := {| errflag := errflag x; fflag := b; vals := vals x; nms := f |}.
Definition bad (x : st) : st := {| errflag := S (errflag x); fflag := fflag x; vals := vals x; nms := nms x |}.

(** one turn of the switch, l.186-324, for the options with an argument *)
Definition with_arg (x : st) (c : ascii) (a : str) : st :=
  let n := num a in
  let f := nms x in
  if Ascii.eqb c "N" then set_val x v_trunc n
  else if Ascii.eqb c "e" then set_val x v_elim (if n <? 0 then 0 else n)
  else if Ascii.eqb c "u" then set_val x v_ht n
  else if Ascii.eqb c "p" then set_val x v_prec (if n <? 0 then 128 else n)
  else if Ascii.eqb c "q" then set_val x v_sig (let m := if n <? 0 then 0 else n in if 3 <? m then 0 else m)
  else if Ascii.eqb c "R" then set_val x v_refine 1
  else if Ascii.eqb c "I" then set_val x v_isol n
  else if Ascii.eqb c "s" then set_val x v_hts n
  else if Ascii.eqb c "r" then set_val x v_reduce n
  else if Ascii.eqb c "m" then set_val x v_pairs n
  else if Ascii.eqb c "v" then set_val x v_info n
  else if Ascii.eqb c "L" then set_val x v_lift n
  else if Ascii.eqb c "t" then set_val x v_threads n
  else if Ascii.eqb c "l" then set_val x v_la n
  else if Ascii.eqb c "f" then set_name x false {| f_in := Some a; f_bin := f_bin f; f_out := f_out f; f_bout := f_bout f |}
  else if Ascii.eqb c "F" then set_name x false {| f_in := f_in f; f_bin := Some a; f_out := f_out f; f_bout := f_bout f |}
  else if Ascii.eqb c "o" then set_name x (fflag x) {| f_in := f_in f; f_bin := f_bin f; f_out := Some a; f_bout := f_bout f |}
  else if Ascii.eqb c "O" then set_name x (fflag x) {| f_in := f_in f; f_bin := f_bin f; f_out := f_out f; f_bout := Some a |}
  else if Ascii.eqb c "P" then set_val x v_param (if n <=? 0 then 0 else n)
  else if Ascii.eqb c "g" then set_val x v_print (let m := if n <? 0 then 0 else n in if 2 <? m then 2 else m)
  else if Ascii.eqb c "c" then set_val x v_gener (let m := if n <? 0 then 0 else n in if 2 <? m then 2 else m)
  else if Ascii.eqb c "d" then set_val x v_stair (let m := if n <? 0 then 0 else n in if 4 <? m then 4 else m)
  else if Ascii.eqb c "n" then set_val x v_nf (if n <? 0 then 0 else n)
  else if Ascii.eqb c "M" then set_val x v_nfm (if n <? 0 then 0 else n)
  else bad x.
(** l.185-325, then l.326-339 *)
Fixpoint loop (x : st) (l : list occ) : asked + st :=
  match l with
  | [] => inr x
  | Bad :: r => loop (bad x) r
  | Flag c :: r =>
      if Ascii.eqb c "h" then inl Help
      else if Ascii.eqb c "V" then inl Version
      else if Ascii.eqb c "i" then loop (set_val x v_gb 1) r
      else if Ascii.eqb c "S" then loop (set_val x v_sat 1) r
      else if Ascii.eqb c "C" then loop (set_val x v_colon 1) r
      else loop (bad x) r
  | Opt c a :: r => loop (with_arg x c a) r
  end.
Definition st0 : st := {| errflag := 0; fflag := true; vals := defaults; nms := {| f_in := None; f_bin := None; f_out := None; f_bout := None |} |}.
Definition getoptions (args : list str) : asked :=
  match loop st0 (getopt None args) with
  | inl o => o
  | inr x => if fflag x then NoFile else match errflag x with O => Run (vals x) (nms x) | S _ => Invalid end
  end.

(** fopen(n, "r") and fopen(n, "w") followed by fclose *)
Definition str_eqb (a b : str) : bool := if list_eq_dec ascii_dec a b then true else false.
Definition can_read (d : disk) (n : option str) : bool := match n with None => false | Some n => match d_file d n with Some _ => true | None => false end end.
Definition clear_file (d : disk) (n : str) : option disk :=
  if negb (d_write d n) then None else
  Some match d_file d n with
       | Some k => {| d_file := d_file d; d_text := fun j => if Nat.eqb j k then [] else d_text d j; d_next := d_next d; d_write := d_write d |}
       | None => {| d_file := fun m => if str_eqb m n then Some (d_next d) else d_file d m;
                    d_text := fun j => if Nat.eqb j (d_next d) then [] else d_text d j; d_next := S (d_next d); d_write := d_write d |}
       end.
(** main, l.383-438: ends with the exit code, or with the data of the input being lost (exit or undefined behaviour while reading), or
    goes on with the settings, the names, the input and the disk *)
Inductive begun := Ends (code : Z) | Lost (d : disk) | Goes (s : var -> Z) (f : files) (i : input) (d : disk).
Definition main (d : disk) (args : list str) : begun :=
  match getoptions args with
  | Help | Version => Ends 0
  | NoFile | Invalid => Ends 1
  | Run s f =>
      if negb (can_read d (f_in f)) && negb (can_read d (f_bin f)) then Ends 1 else
      match match f_out f with None => Some d | Some n => clear_file d n end with
      | None => Ends 1
      | Some d' =>
          match match f_in f with None => None | Some n => text_of d' n end with
          | None => Lost d'
          | Some t =>
              match read_file t with
              | None => Lost d'
              | Some i => Goes (if (0 <? i_char i) && (i_char i <? 2 ^ 15) && (2 <? s v_la) then upd s v_la 2 else s) f i d'
              end
          end
      end
  end.
