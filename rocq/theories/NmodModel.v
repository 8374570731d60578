(** The operations of FLINT's nmod_poly on which src/fglm relies: polynomials modulo p, stored without leading
    zeros and with coefficients in [0, p). They are part of the trusted base: /repo calls them, it does not contain them.
    Each is modelled by its schoolbook algorithm. *)
From Coq Require Import ZArith Arith List Bool.
From Verif Require Import FpSpec ModInvModel.
Import ListNotations.
Open Scope Z_scope.

Fixpoint strip (a : list Z) : list Z :=
  match a with
  | [] => []
  | x :: a' => match strip a' with [] => if x =? 0 then [] else [x] | r => x :: r end
  end.
(** the stored form *)
Definition norm (p : Z) (a : list Z) : list Z := strip (map (fun x => x mod p) a).
(** n_invmod *)
Definition zinv (p a : Z) : Z :=
  match mod_p_inverse (Z.log2 p + 3) (Z.log2 p + 1) (a mod p) p with Some x => x | None => 0 end.
(** nmod_poly_degree: -1 for the zero polynomial *)
Definition ndeg (a : list Z) : Z := Z.of_nat (length a) - 1.
Definition nadd (p : Z) (a b : list Z) : list Z := norm p (padd a b).
Definition nsub (p : Z) (a b : list Z) : list Z := norm p (psub a b).
Definition nmul (p : Z) (a b : list Z) : list Z := norm p (pmul a b).
Definition nscal (p c : Z) (a : list Z) : list Z := norm p (pscal c a).
Definition nshift (p : Z) (n : nat) (a : list Z) : list Z := norm p (pshift n a).
(** nmod_poly_make_monic; the zero polynomial is an error *)
Definition nmonic (p : Z) (a : list Z) : option (list Z) :=
  match a with [] => None | _ => Some (nscal p (zinv p (last a 0)) a) end.
(** nmod_poly_divrem; division by zero is an error *)
Fixpoint divrem_loop (fuel : nat) (p : Z) (a b : list Z) (inv : Z) : option (list Z * list Z) :=
  match fuel with
  | O => None
  | S f =>
      if (length a <? length b)%nat then Some ([], a) else
      let c := (last a 0 * inv) mod p in
      let k := (length a - length b)%nat in
      let? qr := divrem_loop f p (nsub p a (pshift k (pscal c b))) b inv in
      Some (nadd p (pshift k [c]) (fst qr), snd qr)
  end.
Definition ndivrem (p : Z) (a b : list Z) : option (list Z * list Z) :=
  match b with [] => None | _ => divrem_loop (S (length a)) p a b (zinv p (last b 0)) end.
