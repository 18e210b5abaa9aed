(* Patterns, values and what it means for a pattern to match a value. *)
From Verif Require Import Base.
Open Scope Z_scope.

(* TSc lo n c: a scalar type with the n values lo, lo+1, ..., of which the compiler counts c (nconstructors).
   TTup also stands for structs and arrays: their elements in order. *)
Inductive ty := TSc (lo n c : Z) | TStr | TPtr (t : ty) | TTup (ts : list ty) | TUn (us : list (option ty)).
Inductive val := VLit (k : Z) | VStr (bs : list Z) | VPtr (v : val) | VTup (vs : list val) | VUn (tag : nat) (pl : option val).
(* PVar x binds x; PConst is a named constant that is not a scalar (scalar constants are folded to literals);
   PTup lists every element: members a struct pattern leaves out are gaps. *)
Inductive pat := PGap | PVar (x : nat) | PLit (k : Z) | PStr (bs : list Z) | PPtr (p : pat) | PTup (ps : list pat)
| PUn (tag : nat) (pl : option pat) | PConst (p : pat) | POr (p q : pat).


Definition isbyte (b : Z) : Prop := 0 <= b < 256.
(* values and patterns of a type *)
Fixpoint wtv (v : val) (t : ty) : Prop :=
  match v, t with
  | VLit k, TSc lo n _ => lo <= k < lo + n
  | VStr bs, TStr => Forall isbyte bs /\ Z.of_nat (length bs) < 2 ^ 64
  | VPtr v, TPtr t => wtv v t
  | VTup vs, TTup ts => (fix go vs ts := match vs, ts with [], [] => True | v :: vs, t :: ts => wtv v t /\ go vs ts | _, _ => False end) vs ts
  | VUn tag pl, TUn us => match nth_error us tag, pl with
    | Some None, None => True | Some (Some u), Some w => wtv w u | _, _ => False end
  | _, _ => False
  end.
Fixpoint wtp (p : pat) (t : ty) : Prop :=
  match p, t with
  | PGap, _ | PVar _, _ => True
  | PLit k, TSc lo n _ => lo <= k < lo + n
  | PStr bs, TStr => Forall isbyte bs /\ Z.of_nat (length bs) < 2 ^ 64
  | PPtr p, TPtr t => wtp p t
  | PTup ps, TTup ts => (fix go ps ts := match ps, ts with [], [] => True | p :: ps, t :: ts => wtp p t /\ go ps ts | _, _ => False end) ps ts
  | PUn tag pl, TUn us => match nth_error us tag, pl with
    | Some None, None => True | Some (Some u), Some w => wtp w u | _, _ => False end
  | PConst p, t => wtp p t
  | POr p q, t => wtp p t /\ wtp q t
  | _, _ => False
  end.
Fixpoint zlist_eqb (a b : list Z) : bool :=
  match a, b with [], [] => true | x :: a, y :: b => (x =? y) && zlist_eqb a b | _, _ => false end.
(* the manual's meaning of patterns *)
Fixpoint pmatch (p : pat) (v : val) : bool :=
  match p, v with
  | PGap, _ | PVar _, _ => true
  | PLit k, VLit j => k =? j
  | PStr a, VStr b => zlist_eqb a b
  | PPtr p, VPtr v => pmatch p v
  | PTup ps, VTup vs => (fix go ps vs := match ps, vs with [], [] => true | p :: ps, v :: vs => pmatch p v && go ps vs | _, _ => false end) ps vs
  | PUn a None, VUn b None => Nat.eqb a b
  | PUn a (Some p), VUn b (Some v) => Nat.eqb a b && pmatch p v
  | PConst p, v => pmatch p v
  | POr p q, v => pmatch p v || pmatch q v
  | _, _ => false
  end.
(* the first arm whose pattern matches *)
Fixpoint first_arm (ps : list pat) (v : val) : option nat :=
  match ps with [] => None | p :: ps => if pmatch p v then Some O else option_map S (first_arm ps v) end.
(* the variables a matching pattern binds: of alternatives, those of the first that matches *)
Fixpoint bind (p : pat) (v : val) : list (nat * val) :=
  match p, v with
  | PVar x, v => [(x, v)]
  | PPtr p, VPtr v => bind p v
  | PTup ps, VTup vs => (fix go ps vs := match ps, vs with p :: ps, v :: vs => bind p v ++ go ps vs | _, _ => [] end) ps vs
  | PUn _ (Some p), VUn _ (Some v) => bind p v
  | PConst p, v => bind p v
  | POr p q, v => if pmatch p v then bind p v else bind q v
  | _, _ => []
  end.

(* the compiler's count of a scalar type's values is right, or larger than the number of rows N *)
Fixpoint fair (N : Z) (t : ty) : Prop :=
  match t with
  | TSc _ n c => n <= c \/ N < c
  | TStr => N < 2 ^ 64 - 1
  | TPtr t => fair N t
  | TTup ts => (fix go ts := match ts with [] => True | t :: ts => fair N t /\ go ts end) ts
  | TUn us => (fix go us := match us with [] => True | Some t :: us => fair N t /\ go us | None :: us => go us end) us
  end.
(* patterns that look at one place only: a literal, or the constructor of a union with any payload *)
Definition shallow (p : pat) : bool :=
  match p with PGap | PVar _ | PLit _ | PUn _ None | PUn _ (Some PGap) | PUn _ (Some (PVar _)) => true | _ => false end.
(* patterns without alternatives and without structured constants *)
Fixpoint plain (p : pat) : bool :=
  match p with
  | PConst _ | POr _ _ => false
  | PPtr p | PUn _ (Some p) => plain p
  | PTup ps => forallb plain ps
  | _ => true
  end.
(* alternatives at the top only *)
Fixpoint alts (p : pat) : list pat := match p with POr a b => alts a ++ alts b | p => [p] end.
Definition topor (p : pat) : bool := forallb plain (alts p).
Definition isor (p : pat) : bool := match p with POr _ _ => true | _ => false end.
(* arms of a match on a value of type t, with alternatives at the top only *)
Definition okpats (ps : list pat) (t : ty) : Prop := Forall (fun p => topor p = true /\ wtp p t) ps.
