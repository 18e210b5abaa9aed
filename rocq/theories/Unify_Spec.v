(* What it means for two types to be the same, written without reference to the unifier.  A type is a node of a graph; a
   node may have been replaced by another one (a link).  Nothing here models repository code except the shape of nodes. *)
From Verif Require Import Base.

Definition tid := nat.
Definition name := N.
Inductive node :=                                   (* struct Type, parse/parse.h *)
| Nvar (seq : option tid)                           (* a type variable, with the element type of a loop over it, if any *)
| Nprim (k : N)                                     (* void, bool, char, integer and float types, ... *)
| Nparam (n : name)                                 (* @a *)
| Nptr (t : tid) | Nslice (t : tid) | Narray (sz : N) (t : tid)
| Nfunc (ts : list tid) | Ntuple (ts : list tid)    (* Nfunc: return type, then arguments *)
| Nname (n : name) (args : list tid) (t : tid)      (* a named type and the type it stands for *)
| Nstruct (ms : list (name * tid))
| Nunion (ms : list (name * option tid)).
Definition heap := list node.
Definition nodeof (h : heap) (t : tid) : node := nth t h (Nprim 0).
Definition isvar (n : node) : bool := match n with Nvar _ => true | _ => false end.

Definition links := tid -> option tid.
(* following the links from x ends at a *)
Inductive rep (l : links) : tid -> tid -> Prop :=
| rep_end x : l x = None -> rep l x x
| rep_step x y a : l x = Some y -> rep l y a -> rep l x a.

Definition orel {A} (R : A -> A -> Prop) (x y : option A) : Prop :=
  match x, y with Some a, Some b => R a b | None, None => True | _, _ => False end.
(* every member of ms has a member of the same name in ms' *)
Definition covers {A} (R : A -> A -> Prop) (ms ms' : list (name * A)) : Prop :=
  forall n t, In (n, t) ms -> exists t', In (n, t') ms' /\ R t t'.
Definition same_members {A} (R : A -> A -> Prop) (ms ms' : list (name * A)) : Prop :=
  length ms = length ms' /\ covers R ms ms' /\ covers (fun x y => R y x) ms' ms.
Definition same_list {A} (R : A -> A -> Prop) (ms ms' : list (name * A)) : Prop :=
  Forall2 (fun p q => fst p = fst q /\ R (snd p) (snd q)) ms ms'.

(* two nodes are built alike from parts related by R.  [strict]: members of structs and unions are in the same order *)
Definition alike (strict : bool) (R : tid -> tid -> Prop) (a b : node) : Prop :=
  match a, b with
  | Nprim k, Nprim k' => k = k'
  | Nparam n, Nparam n' => n = n'
  | Nptr t, Nptr t' => R t t'
  | Nslice t, Nslice t' => R t t'
  | Narray z t, Narray z' t' => z = z' /\ R t t'
  | Nfunc ts, Nfunc ts' => Forall2 R ts ts'
  | Ntuple ts, Ntuple ts' => Forall2 R ts ts'
  | Nname n us t, Nname n' us' t' => n = n' /\ Forall2 R us us' /\ R t t'
  | Nstruct ms, Nstruct ms' => (if strict then same_list else same_members) R ms ms'
  | Nunion ms, Nunion ms' => (if strict then same_list else same_members) (orel R) ms ms'
  | _, _ => False
  end.
(* x and y denote the same, possibly infinite, type: some relation holding between them is respected by the structure *)
Definition respected (strict : bool) (h : heap) (l : links) (R : tid -> tid -> Prop) : Prop :=
  forall x y, R x y -> exists a b, rep l x a /\ rep l y b /\ (a = b \/ alike strict R (nodeof h a) (nodeof h b)).
Definition same (strict : bool) (h : heap) (l : links) (x y : tid) : Prop := exists R, respected strict h l R /\ R x y.

(* links are sound: they end, and a type that is not a variable is only linked to a type that is the same *)
Definition wf (h : heap) (l : links) : Prop :=
  (forall x, exists a, rep l x a) /\
  (forall x a, isvar (nodeof h x) = false -> rep l x a -> alike false (same false h l) (nodeof h x) (nodeof h a)).

(* the parts of a type that a value of the type physically contains *)
Definition oparts (o : option tid) : list tid := match o with Some t => [t] | None => [] end.
Definition byvalue (n : node) : list tid :=
  match n with
  | Narray _ t => [t] | Nfunc ts => ts | Ntuple ts => ts | Nname _ _ t => [t]
  | Nstruct ms => map snd ms | Nunion ms => flat_map (fun m => oparts (snd m)) ms
  | _ => []
  end.
(* v is the type x or lies within it, not behind a pointer or slice *)
Inductive contains (h : heap) (l : links) (v : tid) : tid -> Prop :=
| ct_here x : rep l x v -> contains h l v x
| ct_part x a y : rep l x a -> In y (byvalue (nodeof h a)) -> contains h l v y -> contains h l v x.

(* e is the type of the elements a loop over x yields *)
Inductive element (h : heap) : tid -> tid -> Prop :=
| el_var x e : nodeof h x = Nvar (Some e) -> element h x e
| el_name x n us t e : nodeof h x = Nname n us t -> element h t e -> element h x e
| el_ptr x e : nodeof h x = Nptr e -> element h x e
| el_slice x e : nodeof h x = Nslice e -> element h x e
| el_array x z e : nodeof h x = Narray z e -> element h x e.

(* A solution: an equivalence of types that respects structure and the element types of loops *)
Record solution (h : heap) (S : tid -> tid -> Prop) : Prop := {
  sol_refl : forall x, S x x;
  sol_sym : forall x y, S x y -> S y x;
  sol_trans : forall x y z, S x y -> S y z -> S x z;
  sol_alike : forall x y, S x y -> isvar (nodeof h x) = false -> isvar (nodeof h y) = false -> alike false S (nodeof h x) (nodeof h y);
  sol_elem : forall x y e e', S x y -> element h x e -> element h y e' -> S e e'
}.
(* under S, a value of type x holds a value of type z inside it *)
Inductive within (h : heap) (S : tid -> tid -> Prop) : tid -> tid -> Prop :=
| wi_part x a y z : S x a -> In y (byvalue (nodeof h a)) -> S y z -> within h S z x
| wi_trans x y z : within h S x y -> within h S y z -> within h S x z.
Definition no_infinite (h : heap) (S : tid -> tid -> Prop) : Prop := forall x, ~ within h S x x.

Definition parts (n : node) : list tid :=
  match n with
  | Nptr t | Nslice t | Narray _ t => [t] | Nfunc ts => ts | Ntuple ts => ts | Nname _ us t => us ++ [t]
  | Nstruct ms => map snd ms | Nunion ms => flat_map (fun m => oparts (snd m)) ms
  | _ => []
  end.
(* under S all types are finite: they have a size that is larger than that of their parts, behind pointers or not *)
Definition all_finite (h : heap) (S : tid -> tid -> Prop) : Prop :=
  exists size : tid -> nat, (forall x y, S x y -> size x = size y) /\
    (forall x y, In y (parts (nodeof h x)) -> size y < size x) /\ (forall x e, element h x e -> size e < size x).
Definition in_heap (h : heap) (t : tid) : Prop := t < length h.
Definition closed (h : heap) : Prop :=
  forall x, (forall y, In y (parts (nodeof h x)) -> in_heap h y) /\ (forall e, element h x e -> in_heap h e).
