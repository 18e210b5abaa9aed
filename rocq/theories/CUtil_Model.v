(* Model of align (util/util.c), the dynamic list helpers (util/alloc.c) and swapsuffix (util/util.c). *)
From Verif Require Import Base.

(* align, util/util.c:95-102, in size_t arithmetic (modulo 2^64) *)
Definition align (sz a : N) : N :=
  if N.eqb a 0 then sz
  else N.land ((sz + a - 1) mod W64) (N.lnot (a - 1) 64).

(* --- dynamic lists: util/alloc.c:60-135 ---
   A list is a heap block of cells (None = uninitialised) and the separately kept length.
   Outer None: an access outside the block (undefined behaviour) or a failing assert.
   Simplification: malloc/realloc never fail (the code dies), sizes do not overflow. *)
Section L.
Context {A : Type}.
Definition block := list (option A).
Definition dl := (block * nat)%type.

(* realloc of a block to n cells: keeps the common prefix, the rest uninitialised *)
Definition realloc (b : block) (n : nat) : block := firstn n b ++ repeat None (n - length b).
Definition store (b : block) (i : nat) (x : A) : option block :=
  if i <? length b then Some (upd b i (Some x)) else None.
Definition load (b : block) (i : nat) : option A := nth i b None.
(* memmove(&l[dst], &l[src], n) *)
Definition memmove (b : block) (dst src n : nat) : option block :=
  if (dst + n <=? length b) && (src + n <=? length b)
  then Some (firstn dst b ++ firstn n (skipn src b) ++ skipn (dst + n) b) else None.

(* lappend, util/alloc.c:61-70 *)
Definition lappend (l : dl) (x : A) : option dl :=
  let '(b, len) := l in
  match store (realloc b (len + 1)) len x with Some b => Some (b, len + 1) | None => None end.

(* lpop, util/alloc.c:72-83; on an empty list len-- wraps and the load is out of bounds *)
Definition lpop (l : dl) : option (A * dl) :=
  let '(b, len) := l in
  match len with
  | O => None
  | S len' => match load b len' with
              | Some v => Some (v, (realloc b len', len'))
              | None => None
              end
  end.

(* linsert, util/alloc.c:85-97 *)
Definition linsert (l : dl) (idx : nat) (x : A) : option dl :=
  let '(b, len) := l in
  let b := realloc b (len + 1) in
  if len <? idx then None (* (len - idx) wraps *) else
  match memmove b (idx + 1) idx (len - idx) with
  | Some b => match store b idx x with Some b => Some (b, len + 1) | None => None end
  | None => None
  end.

(* ldel, util/alloc.c:99-111 *)
Definition ldel (l : dl) (idx : nat) : option dl :=
  let '(b, len) := l in
  if idx <? len then
    match memmove b idx (idx + 1) (len - idx - 1) with
    | Some b => Some (realloc b (len - 1), len - 1)
    | None => None
    end
  else None.

(* lcat, util/alloc.c:113-123; [src] is read as a list of nsrc initialised cells *)
Fixpoint lcat (dst : dl) (src : list A) : option dl :=
  match src with
  | [] => Some dst
  | x :: src => match lappend dst x with Some dst => lcat dst src | None => None end
  end.

(* lfree, util/alloc.c:125-135 *)
Definition lfree (l : dl) : dl := ([], 0).
End L.
Arguments dl : clear implicits.

(* swapsuffix, util/util.c:51-75; strings are byte lists without the terminating NUL.
   None: returns NULL; Some None: dies; Some (Some r): the string left in buf. *)
Definition strip (k : nat) (s : list N) : list N := skipn (length s - k) s.
Fixpoint streqb (a b : list N) : bool :=
  match a, b with
  | [], [] => true
  | x :: a, y :: b => N.eqb x y && streqb a b
  | _, _ => false
  end.
Definition swapsuffix (sz : nat) (s suf swap : list N) : option (option (list N)) :=
  if length s <? length suf then None
  else if sz <=? length s + length swap then Some None
  else if (length suf <? length s) && streqb suf (strip (length suf) s)
       then Some (Some (firstn (length s - length suf) s ++ swap))
       else Some (Some (s ++ swap)).
