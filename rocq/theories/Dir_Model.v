(* Model of lib/std/dirname.myr (C99); copying the result is left out. *)
From Verif Require Import Base ListX Sort_Model Utf_Model Str_Model.
Open Scope N_scope.

(* the loop over the slashes at the end, lib/std/dirname.myr:20-24 and :36-40; e is end *)
Fixpoint endloop (e : nat) (p : list byte) : nat :=
  match e with
  | O => O
  | S e' => if (1 <? e)%nat then (if nth e' p 0 =? 47 then endloop e' p else e) else e
  end.
(* dirname, lib/std/dirname.myr:17-31 *)
Definition dirname (p : list byte) : outcome (list byte) :=
  let p := firstn (endloop (length p) p) p in
  match strrfind p [47] with
  | Nowhere => Done [46]
  | At O => Done [47]
  | At i => Done (firstn i p)
  | Oob => Abort
  end.
(* basename, lib/std/dirname.myr:33-46 *)
Definition basename (p : list byte) : outcome (list byte) :=
  let e := endloop (length p) p in
  let p := firstn e p in
  match strrfind p [47] with
  | Nowhere => Done (firstn e p)
  | At i => if (i + 1 <=? e)%nat then Done (firstn (e - (i + 1)) (skipn (i + 1) p)) else Abort
  | Oob => Abort
  end.
