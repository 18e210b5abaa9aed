(* Sets of naturals as predicates. *)
From Verif Require Import Base SBitset_Model.
Open Scope N_scope.
Definition nset := N -> Prop.
Definition sstore := nat -> nset.
Definition supd (m : sstore) (r : nat) (P : nset) : sstore := fun x => if Nat.eqb x r then P else m x.
Definition spec_step (m : sstore) (o : op) : sstore :=
  match o with
  | OPut r e => supd m r (fun x => m r x \/ x = e)
  | ODel r e => supd m r (fun x => m r x /\ x <> e)
  | OUnion r s => supd m r (fun x => m r x \/ m s x)
  | OInter r s => supd m r (fun x => m r x /\ m s x)
  | ODiff r s => supd m r (fun x => m r x /\ ~ m s x)
  | OClear r => supd m r (fun _ => False)
  | ODup r s => supd m r (m s)
  | OEq _ _ | OSub _ _ => m
  end.
Definition spec_run (os : list op) : sstore := fold_left spec_step os (fun _ _ => False).

(* every intersection in the history is made with a second set whose capacity (bsmax) exceeds
   all members of the first *)
Definition intersections_fit (os : list op) : Prop :=
  forall pre r s post, os = pre ++ OInter r s :: post -> forall x, spec_run pre r x -> x < bsmax (run pre s).
