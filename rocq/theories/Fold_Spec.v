(* Integer expressions and what they compute. *)
From Verif Require Import Base Word.
Open Scope Z_scope.

(* an integer type: its width in bits and whether it is signed *)
Record ity := mkity { width : Z; signed : bool }.
Definition okity (t : ity) : Prop := In (width t) [8; 16; 32; 64].
(* the value of type t that is congruent to z *)
Definition norm (t : ity) (z : Z) : Z := if signed t then swrap (width t) z else uwrap (width t) z.
Inductive op := Add | Sub | Mul | Div | Mod | Shl | Shr | And | Or | Xor.
(* Lit and Chr are integer and character literals; Call f e is a call with one argument, which has an effect *)
Inductive expr := Lit (t : ity) (k : Z) | Chr (t : ity) (c : Z) | Var (t : ity) (x : nat) | Neg (t : ity) (e : expr)
| Bin (o : op) (t : ity) (a b : expr) | Cast (t : ity) (e : expr) | Call (t : ity) (f : nat) (e : expr).
Definition ty (e : expr) : ity :=
  match e with Lit t _ | Chr t _ | Var t _ | Neg t _ | Bin _ t _ _ | Cast t _ | Call t _ _ => t end.
Fixpoint wt (e : expr) : Prop :=
  okity (ty e) /\ match e with
  | Neg t a => ty a = t /\ wt a
  | Bin _ t a b => ty a = t /\ ty b = t /\ wt a /\ wt b
  | Cast _ a | Call _ _ a => wt a
  | _ => True
  end.
(* None: not defined (division by zero, quotient that does not fit, shift by less than zero or by the width or more) *)
Definition binop (o : op) (t : ity) (a b : Z) : option Z :=
  match o with
  | Add => Some (norm t (a + b))
  | Sub => Some (norm t (a - b))
  | Mul => Some (norm t (a * b))
  | Div => if b =? 0 then None else if norm t (Z.quot a b) =? Z.quot a b then Some (Z.quot a b) else None
  | Mod => if b =? 0 then None else if norm t (Z.quot a b) =? Z.quot a b then Some (Z.rem a b) else None
  | Shl => if (0 <=? b) && (b <? width t) then Some (norm t (Z.shiftl a b)) else None
  | Shr => if (0 <=? b) && (b <? width t) then Some (Z.shiftr a b) else None
  | And => Some (norm t (Z.land a b))
  | Or => Some (norm t (Z.lor a b))
  | Xor => Some (norm t (Z.lxor a b))
  end.
(* the value, and the calls made with their arguments, in order; results f gives the calls' results *)
Section Eval.
Variables (results : nat -> Z -> Z) (env : nat -> Z).
Fixpoint eval (e : expr) : option (Z * list (nat * Z)) :=
  match e with
  | Lit t k => Some (norm t k, [])
  | Chr t c => Some (norm t (uwrap 32 c), [])
  | Var t x => Some (norm t (env x), [])
  | Neg t a => match eval a with Some (u, l) => Some (norm t (- u), l) | None => None end
  | Bin o t a b => match eval a, eval b with
    | Some (u, l), Some (v, m) => match binop o t u v with Some r => Some (r, l ++ m) | None => None end
    | _, _ => None end
  | Cast t a => match eval a with Some (u, l) => Some (norm t u, l) | None => None end
  | Call t f a => match eval a with Some (u, l) => Some (norm t (results f u), l ++ [(f, u)]) | None => None end
  end.
End Eval.

(* no / % >> and no widening cast *)
Fixpoint ring (e : expr) : bool :=
  match e with
  | Lit _ _ | Chr _ _ | Var _ _ => true
  | Neg _ a | Call _ _ a => ring a
  | Cast t a => (width t <=? width (ty a)) && ring a
  | Bin o _ a b => match o with Div | Mod | Shr => false | _ => true end && ring a && ring b
  end.
(* every type in the expression is the signed 64-bit type *)
Definition int64 : ity := mkity 64 true.
Fixpoint all64 (e : expr) : Prop :=
  ty e = int64 /\ match e with Neg _ a | Cast _ a | Call _ _ a => all64 a | Bin _ _ a b => all64 a /\ all64 b | _ => True end.
Fixpoint calls (e : expr) : bool :=
  match e with Lit _ _ | Chr _ _ | Var _ _ => false | Neg _ a | Cast _ a => calls a | Bin _ _ a b => calls a || calls b | Call _ _ _ => true end.
(* no call inside an operand of * or % *)
Fixpoint keepscalls (e : expr) : bool :=
  match e with
  | Lit _ _ | Chr _ _ | Var _ _ => true
  | Neg _ a | Cast _ a | Call _ _ a => keepscalls a
  | Bin o _ a b => match o with Mul | Mod => negb (calls a || calls b) | _ => true end && keepscalls a && keepscalls b
  end.
