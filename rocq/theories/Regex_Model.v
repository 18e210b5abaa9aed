(* Model of lib/regex/compile.myr (code generation) and lib/regex/interp.myr.  Strings are lists of bytes, positions and
   instruction addresses natural numbers.  Debugging and tracing are left out, and so is the packing of instructions
   into 64-bit words (convert, compile.myr:99-119, undone by step), which is exact for programs below 2^30 instructions. *)
From Verif Require Import Base.
From Verif Require Utf_Model.
Import Utf_Model(byte).
Open Scope nat_scope.

(* ast, lib/regex/types.myr:44-64.  The reluctant mark of Star and Plus is the boolean. *)
Inductive ast :=
| Alt (a b : ast) | Cat (a b : ast)
| Star (a : ast) (r : bool) | Plus (a : ast) (r : bool) | Quest (a : ast)
| Chr (c : N) | Ranges (rl : list (N * N))
| Cap (m : nat) (a : ast) | Bol | Eol | Bow | Eow.

(* reinst, lib/regex/types.myr:93-112 *)
Inductive inst :=
| Ibyte (b : N) | Irange (lo hi : N)
| Ilbra (m : nat) | Irbra (m : nat)
| Ibol | Ieol | Ibow | Ieow
| Ifork (l r : nat) | Ijmp (d : nat) | Imatch (id : nat).

(* ---- code generation ---- *)

(* std.encode into a four byte buffer, giving the bytes written *)
Definition enc (c : N) : list N := let '(n, b) := Utf_Model.encode [0; 0; 0; 0]%N c in firstn (Z.to_nat n) b.

(* bound, lib/regex/compile.myr:197-210; fill is 0x00 or 0xff; bytes are taken modulo 256 *)
Definition bound (len : nat) (fill : N) : list N :=
  if len =? 1 then [0x7f%N]
  else N.lor (N.land (N.shiftl 0xff (N.of_nat (8 - len))) 0xff) (N.shiftr fill (N.of_nat len + 1)) ::
       repeat (N.lor 0x80 (N.shiftr fill 2)) (len - 1).

(* the loop of genranges over one range, lib/regex/compile.myr:180-187: the pairs of equally long byte strings handed to
   rtinsert, k being the number of lengths still to do *)
Fixpoint splitr (k i : nat) (lo hi : list N) : list (list N * list N) :=
  match k with
  | O => [(lo, hi)]
  | S k => (lo, bound i 0xff) :: splitr k (i + 1) (bound (i + 1) 0) hi
  end.
Definition rangeparts (r : N * N) : list (list N * list N) :=
  let lo := enc (fst r) in let hi := enc (snd r) in splitr (length hi - length lo) (length lo) lo hi.

(* rangetrie, lib/regex/compile.myr:212-216: the end mark, and the ranges with their links *)
Inductive trie := Node (fin : bool) (sub : list (N * N * trie)).
(* rtinsert, lib/regex/compile.myr:239-267; None: the assertion that the strings are equally long fails *)
Fixpoint rtinsert (lo hi : list N) (t : trie) : option trie :=
  let '(Node e sub) := t in
  match lo, hi with
  | [], [] => Some (Node true sub)
  | l :: lo', h :: hi' =>
      match rev sub with
      | (a, b, t') :: front =>
          if (a =? l)%N && (b =? h)%N then
            match rtinsert lo' hi' t' with None => None | Some t' => Some (Node e (rev front ++ [(a, b, t')])) end
          else match rtinsert lo' hi' (Node false []) with None => None | Some t' => Some (Node e (sub ++ [(l, h, t')])) end
      | [] => match rtinsert lo' hi' (Node false []) with None => None | Some t' => Some (Node e [(l, h, t')]) end
      end
  | _, _ => None
  end.
Fixpoint rtinsertall (ps : list (list N * list N)) (t : trie) : option trie :=
  match ps with [] => Some t | (l, h) :: ps => match rtinsert l h t with None => None | Some t => rtinsertall ps t end end.

(* rangeprogsize, lib/regex/compile.myr:307-322 *)
Fixpoint rangeprogsize (t : trie) : nat :=
  let '(Node e sub) := t in
  (match sub with [] => 0 | _ => 2 * length sub - 1 + (fix sum l := match l with [] => 0 | (_, t) :: l => rangeprogsize t + sum l end) sub end)
  + (if e then 1 else 0).

(* rangegen, lib/regex/compile.myr:278-305: the code at pc for some of the ranges of a node, in order.  The list is
   halved in the code; fuel bounds the nesting (halving and descending).  None: fuel exhausted, or an end mark on a
   node that has ranges (the code then uses the size of the buffer as an address; shown not to happen). *)
Fixpoint rangegen (fuel : nat) (sub : list (N * N * trie)) (pc fin : nat) : option (list inst) :=
  match fuel with
  | O => None
  | S fuel =>
      match sub with
      | [] => Some []
      | [(a, b, Node e sub')] =>
          if e then
            match sub' with [] => Some [Irange a b; Ijmp fin] | _ => None end
          else option_map (cons (Irange a b)) (rangegen fuel sub' (pc + 1) fin)
      | _ =>
          let n := length sub / 2 in
          match rangegen fuel (firstn n sub) (pc + 1) fin with
          | None => None
          | Some c1 =>
              match rangegen fuel (skipn n sub) (pc + 1 + length c1) fin with
              | None => None
              | Some c2 => Some (Ifork (pc + 1) (pc + 1 + length c1) :: c1 ++ c2)
              end
          end
      end
  end.
(* genranges, lib/regex/compile.myr:165-195 *)
Definition genranges (rl : list (N * N)) (pc : nat) : option (list inst) :=
  match rtinsertall (concat (map rangeparts rl)) (Node false []) with
  | None => None
  | Some (Node e sub) => rangegen (rangeprogsize (Node e sub) + 2) sub pc (rangeprogsize (Node e sub) + pc)
  end.

(* genchar, lib/regex/compile.myr:394-404; None: the assertion fails *)
Definition genchar (c : N) : option (list inst) :=
  if length (enc c) <? 4 then Some (map Ibyte (enc c)) else None.

(* genstar, lib/regex/compile.myr:356-378, around the code ca of the body at pc + 1 *)
Definition starcode (r : bool) (pc : nat) (ca : list inst) : list inst :=
  let l1 := pc + 1 in
  let l2 := pc + 1 + length ca + 1 in
  (if r then Ifork l2 l1 else Ifork l1 l2) :: ca ++ [Ijmp pc].

(* gen, genalt, genquest, lib/regex/compile.myr:139-163, 336-353, 381-391: the code for t at address pc.  The forks and
   jumps the code appends first and fills in later are written with their final targets. *)
Fixpoint gen (t : ast) (pc : nat) : option (list inst) :=
  match t with
  | Alt a b =>
      match gen a (pc + 1) with
      | None => None
      | Some ca =>
          match gen b (pc + 1 + length ca + 1) with
          | None => None
          | Some cb =>
              Some (Ifork (pc + 1) (pc + 1 + length ca + 1) :: ca ++ Ijmp (pc + 1 + length ca + 1 + length cb) :: cb)
          end
      end
  | Cat a b =>
      match gen a pc with
      | None => None
      | Some ca => match gen b (pc + length ca) with None => None | Some cb => Some (ca ++ cb) end
      end
  | Star a r => match gen a (pc + 1) with None => None | Some ca => Some (starcode r pc ca) end
  | Plus a r =>
      match gen a pc with
      | None => None
      | Some ca =>
          match gen a (pc + length ca + 1) with None => None | Some cb => Some (ca ++ starcode r (pc + length ca) cb) end
      end
  | Quest a =>
      match gen a (pc + 1) with None => None | Some ca => Some (Ifork (pc + 1) (pc + 1 + length ca) :: ca) end
  | Chr c => genchar c
  | Ranges rl => genranges rl pc
  | Cap m a => match gen a (pc + 1) with None => None | Some ca => Some (Ilbra m :: ca ++ [Irbra m]) end
  | Bol => Some [Ibol] | Eol => Some [Ieol] | Bow => Some [Ibow] | Eow => Some [Ieow]
  end.
(* regexcompile after parsing, lib/regex/compile.myr:86-94, with the match id 0 that compile passes *)
Definition compile (t : ast) : option (list inst) :=
  match gen t 1 with None => None | Some c => Some (Ilbra 0 :: c ++ [Irbra 0; Imatch 0]) end.

(* ---- the interpreter ---- *)

(* one group of mgroup: start and end, None for -1 *)
Definition group : Type := option nat * option nat.
(* rethread, lib/regex/types.myr:66-75, without the links of the queues and the thread number; mgroup has 16 entries *)
Record thread := mkthr { ip : nat; mgroup : list group }.
Definition setlo (mg : list group) (m p : nat) : list group := upd mg m (Some p, snd (nth m mg (None, None))).
Definition sethi (mg : list group) (m p : nat) : list group := upd mg m (fst (nth m mg (None, None)), Some p).

(* prevchar, lib/regex/interp.myr:488-495, from i >= 1: where the character before i starts *)
Fixpoint prevchar (s : list N) (i : nat) : nat :=
  match i with
  | O => 0
  | S j => match j with O => 0 | S _ => if (0x80 <=? nth j s 0)%N then prevchar s j else j end
  end.

(* what a step does: the thread consumed a byte, died, matched, goes on without consuming (with the threads it
   queued in front), or the program aborts *)
Inductive sres := Consumed (t : thread) | Died | Matched (t : thread) | Goon (t : thread) (new : list thread) | Sabort.

Section Run.
(* iswordchar, lib/regex/interp.myr:497-502: depends on the tables of lib/std/chartype.myr, kept as a parameter *)
Variable isword : list N -> bool.
Variable prog : list inst.
Variable str : list N.

Definition next (t : thread) : sres := Goon (mkthr (ip t + 1) (mgroup t)) [].
(* step, lib/regex/interp.myr:312-412, at position p.  cur is curip, None for -1.  Out of bounds: code[ip], mgroup[m];
   \> at the start of an empty string fails prevchar's assertion. *)
Definition step (p : nat) (cur : option nat) (t : thread) : sres :=
  match nth_error prog (ip t) with
  | None => Sabort
  | Some i =>
      match i with
      | Irange lo hi =>
          match nth_error str p with
          | None => Died
          | Some b => if (b <? lo)%N || (hi <? b)%N then Died else Consumed (mkthr (ip t + 1) (mgroup t))
          end
      | Ibyte b' =>
          match nth_error str p with
          | None => Died
          | Some b => if negb (b' =? b)%N then Died else Consumed (mkthr (ip t + 1) (mgroup t))
          end
      | Ifork l r =>
          let new := if match cur with Some c => c =? r | None => false end then [] else [mkthr r (mgroup t)] in
          Goon (mkthr l (mgroup t)) new
      | Ijmp d => Goon (mkthr d (mgroup t)) []
      | Imatch _ => Matched t
      | Ilbra m => if m <? 16 then Goon (mkthr (ip t + 1) (setlo (mgroup t) m p)) [] else Sabort
      | Irbra m => if m <? 16 then Goon (mkthr (ip t + 1) (sethi (mgroup t) m p)) [] else Sabort
      | Ibol => if (p =? 0) || (nth (p - 1) str 0 =? 10)%N then next t else Died
      | Ieol => if (p =? length str) || (nth p str 0 =? 10)%N then next t else Died
      | Ibow => if isword (skipn p str) && ((p =? 0) || negb (isword (skipn (prevchar str p) str))) then next t else Died
      | Ieow =>
          if (p =? length str) && (p =? 0) then Sabort
          else if (p =? length str) && isword (skipn (prevchar str p) str) then next t
          else if (0 <? p) && negb (isword (skipn p str)) && isword (skipn (prevchar str p) str) then next t
          else Died
      end
  end.

(* how a thread leaves the loop of run that steps it, lib/regex/interp.myr:234-237, with the run queue and the number of
   live threads (nthr) afterwards.  Thang: fuel exhausted *)
Inductive tres := Tcons (t : thread) (q : list thread) (n : Z) | Tdead (q : list thread) (n : Z)
| Tmatch (t : thread) (q : list thread) (n : Z) | Tabort | Thang.
Fixpoint stepall (fuel : nat) (p start : nat) (cur : option nat) (t : thread) (q : list thread) (n : Z) : tres :=
  match fuel with
  | O => Thang
  | S fuel =>
      match step p cur t with
      | Consumed t => Tcons t q n
      | Died => Tdead q (n - 1)              (* die, :414-428 *)
      | Matched t => Tmatch t q (n - 1)      (* finish, :430-433 *)
      | Goon t new => stepall fuel p start (Some start) t (new ++ q) (n + Z.of_nat (length new))
      | Sabort => Tabort
      end
  end.

(* the inner loop of run, lib/regex/interp.myr:217-280: all threads of the run queue at position p.  states is the set of
   the addresses of the threads in expired. *)
Inductive rres := Rend (expired : list thread) (best : option thread) (n : Z)
| Rdone (t : thread) (expired : list thread) (n : Z) | Rabort | Rhang.
Definition mem (x : nat) (l : list nat) : bool := existsb (Nat.eqb x) l.
Fixpoint round (fuel : nat) (whole : bool) (p : nat) (q : list thread) (states : list nat) (expired : list thread)
  (best : option thread) (n : Z) : rres :=
  match fuel with
  | O => Rhang
  | S fuel' =>
      match q with
      | [] => Rend expired best n
      | t :: q =>
          match stepall fuel p (ip t) None t q n with
          | Thang => Rhang
          | Tabort => Rabort
          | Tdead q n => round fuel' whole p q states expired best n
          | Tmatch t q n =>
              if mem (ip t) states then round fuel' whole p q states expired best (n - 1)
              else if p =? length str then Rdone t expired n
              else round fuel' whole p q states expired (if whole then None else Some t) n
          | Tcons t q n =>
              if mem (ip t) states then round fuel' whole p q states expired best (n - 1)
              else round fuel' whole p q (ip t :: states) (expired ++ [t]) best n
          end
      end
  end.

(* the outer loop, lib/regex/interp.myr:216-290: the best match, if any, and the count of threads left behind *)
Inductive res := Ret (best : option thread) (n : Z) | Abort | Hang.
Fixpoint rounds (fuel : nat) (whole : bool) (p : nat) (q : list thread) (best : option thread) (n : Z) : res :=
  match fuel with
  | O => Hang
  | S fuel' =>
      if (0 <? n)%Z then
        match round fuel whole p q [] [] best n with
        | Rend expired best n => rounds fuel' whole (p + 1) expired best n
        | Rdone t _ n => Ret (Some t) n
        | Rabort => Abort
        | Rhang => Hang
        end
      else Ret best n
  end.
(* run, lib/regex/interp.myr:183-215: n0 is nthr as left by the previous use of the regex.  Groups beyond nmatch of a
   thread's storage are never read; they start as None here.  When run returns, expired is empty (round_ok in
   Regex_Run.v), so that it need not be kept between runs. *)
Definition run (fuel : nat) (whole : bool) (nmatch : nat) (n0 : Z) : res :=
  if 16 <? nmatch then Abort
  else rounds fuel whole 0 [mkthr 0 (repeat (None, None) 16)] None (n0 + 1).
End Run.

(* a compiled regex: program, number of groups (with the whole match), and the thread count left from the last use *)
Record regex := mkre { prog : list inst; nmatch : nat; nthr : Z }.
Inductive out (A : Type) := Val (a : A) | Aborted | Hung.
Arguments Val {A}. Arguments Aborted {A}. Arguments Hung {A}.
Definition setn (re : regex) (n : Z) : regex := mkre (prog re) (nmatch re) n.
Section Use.
Variable isword : list N -> bool.
Definition runre (fuel : nat) (re : regex) (str : list N) (whole : bool) : res := run isword (prog re) str fuel whole (nmatch re) (nthr re).

(* iexec and exec, lib/regex/interp.myr:31-37 with getidxmatches, :162-174, and cleanup, :124-134: the groups (exec
   returns the parts of str they delimit), and the regex afterwards *)
Definition groups (re : regex) (t : thread) : list group := firstn (nmatch re) (mgroup t).
Definition iexec (fuel : nat) (re : regex) (str : list N) : out (option (list group) * regex) :=
  match runre fuel re str true with
  | Ret None n => Val (None, setn re n)
  | Ret (Some t) n => Val (Some (groups re t), setn re 0)
  | Abort => Aborted
  | Hang => Hung
  end.
(* isearch, lib/regex/interp.myr:51-61 (search, :39-49, returns the parts of str[i:] that the groups delimit) *)
Fixpoint searchfrom (fuel : nat) (re : regex) (str : list N) (k i : nat) : out (option (nat * list group) * regex) :=
  match k with
  | O => Val (None, re)
  | S k =>
      match runre fuel re (skipn i str) false with
      | Ret None n => searchfrom fuel (setn re n) str k (i + 1)
      | Ret (Some t) n => Val (Some (i, groups re t), setn re 0)
      | Abort => Aborted
      | Hang => Hung
      end
  end.
Definition search (fuel : nat) (re : regex) (str : list N) : out (option (nat * list group) * regex) :=
  searchfrom fuel re str (length str) 0.
Definition isearch (fuel : nat) (re : regex) (str : list N) : out (option (list group) * regex) :=
  match search fuel re str with
  | Val (Some (_, g), re) => Val (Some g, re)
  | Val (None, re) => Val (None, re)
  | Aborted => Aborted
  | Hung => Hung
  end.

(* str[lo:hi], None: out of bounds *)
Definition slice (s : list N) (lo hi : nat) : option (list N) :=
  if (lo <=? hi) && (hi <=? length s) then Some (firstn (hi - lo) (skipn lo s)) else None.
(* dosubst, lib/regex/interp.myr:106-122, over the groups from 1 *)
Fixpoint dosubst (gs : list group) (str : list N) (subst : list (list N)) (off : nat) : option (list N) :=
  match gs, subst with
  | (Some lo, Some hi) :: gs, w :: subst =>
      match slice str off lo, dosubst gs str subst hi with Some a, Some b => Some (a ++ w ++ b) | _, _ => None end
  | _ :: gs, _ :: subst => dosubst gs str subst off
  | [], _ => slice str off (length str)
  | _, [] => None
  end.
(* sub and sbsub, lib/regex/interp.myr:63-76: no cleanup afterwards *)
Definition sub (fuel : nat) (re : regex) (str : list N) (subst : list (list N)) : out (option (list N) * regex) :=
  if nmatch re =? length subst + 1 then
    match runre fuel re str true with
    | Ret None n => Val (None, setn re n)
    | Ret (Some t) n =>
        match dosubst (skipn 1 (groups re t)) str subst 0 with None => Aborted | Some o => Val (Some o, setn re n) end
    | Abort => Aborted
    | Hang => Hung
    end
  else Aborted.
(* suball and sbsuball, lib/regex/interp.myr:78-103 *)
Fixpoint suballfrom (steps fuel : nat) (re : regex) (str : list N) (subst : list (list N)) (i : nat) : out (list N * regex) :=
  match steps with
  | O => Hung
  | S steps =>
      if i <? length str then
        match runre fuel re (skipn i str) false with
        | Ret None n =>
            match suballfrom steps fuel (setn re 0) str subst (i + 1) with
            | Val (o, re) => Val (nth i str 0%N :: o, re)
            | x => x
            end
        | Ret (Some t) n =>
            match nth 0 (mgroup t) (None, None) with
            | (_, Some len) =>
                match slice str i (len + i) with
                | None => Aborted
                | Some w =>
                    match dosubst (skipn 1 (groups re t)) w subst 0, suballfrom steps fuel (setn re 0) str subst (i + len) with
                    | None, _ => Aborted
                    | Some o1, Val (o, re) => Val (o1 ++ o, re)
                    | _, x => x
                    end
                end
            | _ => Aborted
            end
        | Abort => Aborted
        | Hang => Hung
        end
      else Val ([], re)
  end.
Definition suball (steps fuel : nat) (re : regex) (str : list N) (subst : list (list N)) : out (list N * regex) :=
  if nmatch re =? length subst + 1 then suballfrom steps fuel re str subst 0 else Aborted.
End Use.

(* ---- character classes, lib/regex/compile.myr ---- *)
Definition Maxcharval : N := 0x10ffff.   (* lib/std/utf.myr *)
(* merge, lib/regex/compile.myr:851-872, on a list sorted by first character; characters are 32-bit *)
Fixpoint mergeloop (rl : list (N * N)) (lo hi : N) : list (N * N) :=
  match rl with
  | [] => [(lo, hi)]
  | r :: rl => if (fst r <=? (hi + 1) mod 2 ^ 32)%N then mergeloop rl lo (snd r) else (lo, hi) :: mergeloop rl (fst r) (snd r)
  end.
Definition merge (rl : list (N * N)) : list (N * N) :=
  match rl with [] => [] | r :: rl => mergeloop rl (fst r) (snd r) end.
(* negate, lib/regex/compile.myr:834-848 *)
Fixpoint negateloop (rl : list (N * N)) (start nxt : N) : list (N * N) :=
  match rl with
  | [] => [((nxt + 1) mod 2 ^ 32, Maxcharval)]%N
  | r :: rl => (start, (fst r + (2 ^ 32 - 1)) mod 2 ^ 32)%N :: negateloop rl ((snd r + 1) mod 2 ^ 32)%N (snd r)
  end.
Definition negate (rl : list (N * N)) : list (N * N) := negateloop rl 0 0.
