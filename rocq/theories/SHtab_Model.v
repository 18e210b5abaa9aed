(* Model of lib/std/htab.myr.  Slots as in OpenAddr_Model.
   Simplification: the contents of the keys/vals slots before they are first written (slalloc
   leaves them arbitrary) are not represented; they are only read when hashes[i] != 0. *)
From Verif Require Import Base OpenAddr_Model.
Open Scope N_scope.

Record ht (K V : Type) := mkHt { nelt : N; ndead : N; slots : tab K V }.
Arguments mkHt {K V}. Arguments nelt {K V}. Arguments ndead {K V}. Arguments slots {K V}.

Definition bind {A B} (x : option A) (f : A -> option B) : option B :=
  match x with Some a => f a | None => None end.

Section H.
Context {K V : Type}.
Variable hash : K -> N.
Variable eq : K -> K -> bool.

Definition len (t : ht K V) : N := N.of_nat (length (slots t)).

Definition empty (n : nat) : ht K V := mkHt 0 0 (repeat None n).
(* mkht/htinit, lib/std/htab.myr:105-121; Initsz = 32, :40 *)
Definition mkht : ht K V := empty 32.

(* resize, lib/std/htab.myr:53-79 *)
Definition resize (put : ht K V -> K -> V -> option (ht K V)) (t : ht K V) (n : nat) : option (ht K V) :=
  fold_left (fun acc e => bind acc (fun t => put t (fst e) (snd e))) (entries (slots t)) (Some (empty n)).

(* htput, lib/std/htab.myr:131-158.  When an equal key is found the stored key is kept. ndead is
   not decremented when a dead slot is reused.  [depth] bounds htput -> resize -> htput. *)
Fixpoint htput (depth : nat) (t : ht K V) (k : K) (v : V) : option (ht K V) :=
  let h := hashk hash k in
  bind (put_find eq (length (slots t)) (slots t) h k 0) (fun '(i, found) =>
    let k1 := if found then match nth i (slots t) None with Some (_, k', _, _) => k' | None => k end else k in
    let ne := if found then nelt t else nelt t + 1 in
    let t1 := mkHt ne (ndead t) (upd (slots t) i (mkslot h k1 v false)) in
    if len t1 <? nelt t1 * 2
    then match depth with O => None | S d => resize (htput d) t1 (2 * length (slots t1)) end
    else Some t1).

(* idx, lib/std/htab.myr:81-103.  Outer None: endless loop. *)
Fixpoint idx_loop (fuel : nat) (t : tab K V) (h : N) (k : K) (di : N) : option (option nat) :=
  match fuel with
  | O => None
  | S f =>
      match at_ t h di with
      | None => Some None                                               (* :93-95 *)
      | Some (h', k', _, d) =>
          if negb d && negb (h' =? h) then idx_loop f t h k (di + 1)    (* :89-92 *)
          else if (h' =? h) && negb d && eq k' k
               then Some (Some (pos h di (length t)))                   (* :96-98 *)
               else idx_loop f t h k (di + 1)                           (* :99-100 *)
      end
  end.
Definition idx (t : ht K V) (k : K) : option (option nat) :=
  idx_loop (length (slots t)) (slots t) (hashk hash k) k 0.

(* htdel, lib/std/htab.myr:160-173 *)
Definition htdel (t : ht K V) (k : K) : option (ht K V) :=
  bind (idx t k) (fun r => match r with
    | None => Some t
    | Some i =>
        match nth i (slots t) None with
        | Some (h, k', v, _) =>
            let t1 := mkHt (nelt t - 1) (ndead t + 1) (upd (slots t) i (Some (h, k', v, true))) in
            if len t1 <? ndead t1 * 4 then resize (htput 1) t1 (length (slots t1)) else Some t1
        | None => None
        end
    end).

(* htget, :175-180; htgetv, :182-187; hthas, :189-194 *)
Definition htget (t : ht K V) (k : K) : option (option V) :=
  bind (idx t k) (fun r => match r with
    | None => Some None
    | Some i => match nth i (slots t) None with Some (_, _, v, _) => Some (Some v) | None => None end
    end).
Definition htgetv (t : ht K V) (k : K) (fallback : V) : option V :=
  bind (idx t k) (fun r => match r with
    | None => Some fallback
    | Some i => match nth i (slots t) None with Some (_, _, v, _) => Some v | None => None end
    end).
Definition hthas (t : ht K V) (k : K) : option bool :=
  bind (idx t k) (fun r => match r with Some _ => Some true | None => Some false end).

(* htkeys, :196-208: keys[j++] = ... into a slice of nelt elements; None = out of bounds write.
   When fewer than nelt keys are found the tail stays arbitrary; the model then returns the short list. *)
Definition htkeys (t : ht K V) : option (list K) :=
  let ks := map fst (entries (slots t)) in
  if N.of_nat (length ks) <=? nelt t then Some ks else None.

(* htcount, :210-212 *)
Definition htcount (t : ht K V) : N := nelt t.

(* __iternext__ of byhtkeyvals, :219-232: from position i scan for a live slot.
   Returns the entry, if any, and the new idx. *)
Fixpoint scan (s : list (slot K V)) (i : nat) : option (K * V) * nat :=
  match s with
  | [] => (None, i)
  | Some (_, k, v, false) :: _ => (Some (k, v), S i)
  | _ :: s' => scan s' (S i)
  end.
Definition iternext (t : ht K V) (i : nat) : option (K * V) * nat := scan (skipn i (slots t)) i.
(* for (k, v) : byhtkeyvals(ht): repeat until false; None = fuel exhausted *)
Fixpoint iterate (fuel : nat) (t : ht K V) (i : nat) : option (list (K * V)) :=
  match fuel with
  | O => None
  | S f => match iternext t i with
           | (None, _) => Some []
           | (Some e, i') => option_map (cons e) (iterate f t i')
           end
  end.

Inductive op := Put (k : K) (v : V) | Del (k : K).
Definition step (t : ht K V) (o : op) : option (ht K V) :=
  match o with Put k v => htput 1 t k v | Del k => htdel t k end.
Definition run (os : list op) : option (ht K V) :=
  fold_left (fun acc o => bind acc (fun t => step t o)) os (Some mkht).
End H.
Arguments op : clear implicits.
