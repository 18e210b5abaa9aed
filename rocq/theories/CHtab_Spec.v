(* Specification for hash tables: finite maps built by a history of puts and deletes. *)
From Verif Require Import Base CHtab_Model.

Section S.
Context {K V : Type}.
Variable cmp : K -> K -> bool.

(* what the table must answer for key x after history os: the value of the latest put of an equal
   key not followed by a delete of an equal key *)
Definition spec_step (m : K -> option V) (o : op K V) : K -> option V :=
  match o with
  | Put k v => fun x => if cmp k x then Some v else m x
  | Del k => fun x => if cmp k x then None else m x
  end.
Definition spec (os : list (op K V)) : K -> option V := fold_left spec_step os (fun _ => None).

(* key equality is an equivalence the hash function respects *)
Record ok_hash (hash : K -> N) : Prop := {
  cmp_refl : forall a, cmp a a = true;
  cmp_sym : forall a b, cmp a b = cmp b a;
  cmp_trans : forall a b c, cmp a b = true -> cmp b c = true -> cmp a c = true;
  cmp_hash : forall a b, cmp a b = true -> hash a = hash b }.

(* a history that never overwrites a present key after something has been deleted *)
Fixpoint safe_from (m : K -> option V) (deleted : bool) (os : list (op K V)) : Prop :=
  match os with
  | [] => True
  | Put k v :: r => (deleted = true -> m k = None) /\ safe_from (spec_step m (Put k v)) deleted r
  | Del k :: r => safe_from (spec_step m (Del k)) (deleted || match m k with Some _ => true | None => false end) r
  end.
Definition safe (os : list (op K V)) : Prop := safe_from (fun _ => None) false os.
End S.
