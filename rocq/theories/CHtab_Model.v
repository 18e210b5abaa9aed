(* Model of util/htab.c. *)
From Verif Require Import Base OpenAddr_Model.
Open Scope N_scope.

Record ht (K V : Type) := mkHt { nelt : N; ndead : N; slots : tab K V }.
Arguments mkHt {K V}. Arguments nelt {K V}. Arguments ndead {K V}. Arguments slots {K V}.

Definition bind {A B} (x : option A) (f : A -> option B) : option B :=
  match x with Some a => f a | None => None end.

Section H.
Context {K V : Type}.
Variable hash : K -> N.
Variable cmp : K -> K -> bool.

Definition sz (t : ht K V) : N := N.of_nat (length (slots t)).

(* an all-zero table with n slots: util/htab.c:23-31 and 82-88 *)
Definition empty (n : nat) : ht K V := mkHt 0 0 (repeat None n).
(* mkht, util/htab.c:17-34; Initsz 16, :11 *)
Definition mkht : ht K V := empty 16.

(* grow, util/htab.c:66-98; [put] is the recursive htput *)
Definition grow (put : ht K V -> K -> V -> option (ht K V)) (t : ht K V) (n : nat) : option (ht K V) :=
  fold_left (fun acc e => bind acc (fun t => put t (fst e) (snd e))) (entries (slots t)) (Some (empty n)).

(* htput, util/htab.c:103-139.  [depth] bounds the nesting of htput -> grow -> htput;
   None means a search loop that never ends, or deeper nesting. *)
Fixpoint htput (depth : nat) (t : ht K V) (k : K) (v : V) : option (ht K V) :=
  let h := hashk hash k in
  bind (put_find cmp (length (slots t)) (slots t) h k 0) (fun '(i, conflicted) =>
    let ne := if conflicted then nelt t else nelt t + 1 in
    let nd := match nth i (slots t) None with Some (_, _, _, true) => ndead t - 1 | _ => ndead t end in
    let t1 := mkHt ne nd (upd (slots t) i (mkslot h k v false)) in
    bind (if sz t1 <? nelt t1 * 2
          then match depth with O => None | S d => grow (htput d) t1 (length (slots t1) * 2) end
          else Some t1) (fun t2 =>
    if sz t2 <? ndead t2 * 4
    then match depth with O => None | S d => grow (htput d) t2 (length (slots t2)) end
    else Some t2)).

(* htidx, util/htab.c:143-163.  Some (Some i): index i; Some None: returns -1; None: endless loop.
   One step is: leave the while loop or advance (:153-157), then :158-162. *)
Fixpoint htidx_loop (fuel : nat) (t : tab K V) (h : N) (k : K) (di : N) : option (option nat) :=
  match fuel with
  | O => None
  | S f =>
      match at_ t h di with
      | None => Some None
      | Some (h', k', _, d) =>
          if negb d && negb (h' =? h) then htidx_loop f t h k (di + 1)
          else if ((h' =? h) && d) || negb (cmp k' k) then htidx_loop f t h k (di + 1)
          else Some (Some (pos h di (length t)))
      end
  end.
Definition htidx (t : ht K V) (k : K) : option (option nat) :=
  htidx_loop (length (slots t)) (slots t) (hashk hash k) k 0.

(* htget, util/htab.c:170-180.  Some None = NULL *)
Definition htget (t : ht K V) (k : K) : option (option V) :=
  bind (htidx t k) (fun r => match r with
    | None => Some None
    | Some i => match nth i (slots t) None with Some (_, _, v, _) => Some (Some v) | None => None end
    end).

(* htdel, util/htab.c:182-195; a failing assert is None *)
Definition htdel (t : ht K V) (k : K) : option (ht K V) :=
  bind (htidx t k) (fun r => match r with
    | None => Some t
    | Some i => match nth i (slots t) None with
                | Some (h, k', v, false) =>
                    Some (mkHt (nelt t - 1) (ndead t + 1) (upd (slots t) i (Some (h, k', v, true))))
                | _ => None
                end
    end).

(* hthas, util/htab.c:199 *)
Definition hthas (t : ht K V) (k : K) : option bool :=
  bind (htidx t k) (fun r => match r with Some _ => Some true | None => Some false end).

(* htkeys, util/htab.c:206-219: the collected keys and the count stored in *nkeys *)
Definition htkeys (t : ht K V) : list K * N := (map fst (entries (slots t)), nelt t).

(* a history of operations *)
Inductive op := Put (k : K) (v : V) | Del (k : K).
Definition step (t : ht K V) (o : op) : option (ht K V) :=
  match o with Put k v => htput 2 t k v | Del k => htdel t k end.
Definition run (os : list op) : option (ht K V) :=
  fold_left (fun acc o => bind acc (fun t => step t o)) os (Some mkht).
End H.
Arguments op : clear implicits.
