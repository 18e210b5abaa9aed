(* Model of lib/std/strfind.myr, strsplit.myr, strjoin.myr, strreplace.myr, cmp.myr, hasprefix.myr, hassuffix.myr,
   chomp.myr and the split iterator of striter.myr.  Byte strings are lists of numbers; an index outside a slice
   aborts the program (outcome Abort); a loop that never ends has outcome OutOfFuel for every fuel. *)
From Verif Require Import Base Sort_Model Utf_Model.
Open Scope N_scope.

(* the inner loop, lib/std/strfind.myr:16-20 and :34-38: r iterations left; None: index out of bounds *)
Fixpoint match_at (r j : nat) (h n : list byte) (i : nat) : option bool :=
  match r with
  | O => Some true
  | S r => match nth_error h (i + j), nth_error n j with
           | Some a, Some b => if a =? b then match_at r (S j) h n i else Some false
           | _, _ => None
           end
  end.
Inductive found := At (i : nat) | Nowhere | Oob.
(* strfind, lib/std/strfind.myr:10-26; r iterations of the outer loop left *)
Fixpoint find_up (r i : nat) (h n : list byte) : found :=
  match r with
  | O => Nowhere
  | S r => match match_at (length n) 0 h n i with
           | None => Oob
           | Some true => At i
           | Some false => find_up r (S i) h n
           end
  end.
Definition strfind (h n : list byte) : found :=
  if (length h <? length n)%nat then Nowhere
  else if (length n =? 0)%nat && (length h =? 0)%nat then At 0
  else find_up (length h - length n + 1) 0 h n.
(* strrfind, lib/std/strfind.myr:28-44; i = r - 1 *)
Fixpoint find_down (r : nat) (h n : list byte) : found :=
  match r with
  | O => Nowhere
  | S i => match match_at (length n) 0 h n i with
           | None => Oob
           | Some true => At i
           | Some false => find_down i h n
           end
  end.
Definition strrfind (h n : list byte) : found :=
  if (length h <? length n)%nat then Nowhere
  else if (length n =? 0)%nat && (length h =? 0)%nat then At 0
  else find_down (length h - length n + 1) h n.
(* strhas, lib/std/strfind.myr:46-51 *)
Definition strhas (h n : list byte) : bool := match strfind h n with At _ => true | _ => false end.

(* slices: s[:i] and s[i:] with the bounds check *)
Definition pre (s : list byte) (i : nat) : option (list byte) := if (i <=? length s)%nat then Some (firstn i s) else None.
Definition post (s : list byte) (i : nat) : option (list byte) := if (i <=? length s)%nat then Some (skipn i s) else None.

(* dostrsplit with grow, lib/std/strsplit.myr:32-67: the pieces pushed *)
Fixpoint split_loop (fuel : nat) (s d : list byte) : outcome (list (list byte)) :=
  match fuel with
  | O => OutOfFuel
  | S fuel => match strfind s d with
              | Oob => Abort
              | Nowhere => Done [s]
              | At i => match pre s i, post s (i + length d) with
                        | Some p, Some s => ocons p (split_loop fuel s d)
                        | _, _ => Abort
                        end
              end
  end.
Definition strsplit (fuel : nat) (s d : list byte) : outcome (list (list byte)) :=
  if (length s =? 0)%nat then Done [] else split_loop fuel s d.

(* dostrsplit without grow (bstrsplit), on an array of cap entries; idx entries are filled *)
Fixpoint bsplit_loop (fuel : nat) (cap idx : nat) (s d : list byte) : outcome (list (list byte)) :=
  match fuel with
  | O => OutOfFuel
  | S fuel =>
      let last := if (idx <? cap)%nat then Done [s] else Abort in   (* sp#[idx] = s *)
      match strfind s d with
      | Oob => Abort
      | Nowhere => last
      | At i => if (Z.of_nat idx <? Z.of_nat cap - 1)%Z
                then match pre s i, post s (i + length d) with
                     | Some p, Some s => ocons p (bsplit_loop fuel cap (S idx) s d)
                     | _, _ => Abort
                     end
                else last
      end
  end.
Definition bstrsplit (fuel cap : nat) (s d : list byte) : outcome (list (list byte)) :=
  if (length s =? 0)%nat then Done [] else bsplit_loop fuel cap 0 s d.

(* splititer, lib/std/striter.myr:138-161: the pieces `for p : bysplit(s, d)` visits *)
Fixpoint bysplit (fuel : nat) (rest d : list byte) : outcome (list (list byte)) :=
  match fuel with
  | O => OutOfFuel
  | S fuel => match strfind rest d with
              | Oob => Abort
              | At off => match pre rest off, post rest (off + length d) with
                          | Some p, Some rest => ocons p (bysplit fuel rest d)
                          | _, _ => Abort
                          end
              | Nowhere => if (0 <? length rest)%nat then ocons rest (bysplit fuel [] d) else Done []
              end
  end.

(* slcp(s[off:off+src.len], src): bounds checks of the slice; slcp itself asserts equal lengths *)
Definition blit (s : list byte) (off : nat) (src : list byte) : option (list byte) :=
  if (off + length src <=? length s)%nat then Some (firstn off s ++ src ++ skipn (off + length src) s) else None.
(* the copy loop of strjoin, lib/std/strjoin.myr:27-36; the strings not yet copied *)
Fixpoint join_loop (strings : list (list byte)) (d s : list byte) (off : nat) : outcome (list byte) :=
  match strings with
  | [] => Done s
  | x :: rest =>
      match blit s off x with
      | None => Abort
      | Some s =>
          let off := (off + length x)%nat in
          match rest with
          | [] => join_loop rest d s off           (* i == strings.len - 1 *)
          | _ => match blit s off d with
                 | None => Abort
                 | Some s => join_loop rest d s (off + length d)
                 end
          end
      end
  end.
Definition joinlen (strings : list (list byte)) (d : list byte) : nat :=
  let len := fold_left (fun a x => a + length x)%nat strings 0%nat in
  if (0 <? length strings)%nat then (len + (length strings - 1) * length d)%nat else len.
(* strjoin, lib/std/strjoin.myr:14-38; junk = the uninitialised memory slalloc returns *)
Definition strjoin (junk : nat -> byte) (strings : list (list byte)) (d : list byte) : outcome (list byte) :=
  join_loop strings d (map junk (seq 0 (joinlen strings d))) 0.
(* strcat, lib/std/strjoin.myr:10-12 *)
Definition strcat (junk : nat -> byte) (a b : list byte) : outcome (list byte) := strjoin junk [a; b] [].

(* strreplace, lib/std/strreplace.myr:13-29; sljoin appends *)
Fixpoint replace_loop (fuel : nat) (h n r ret : list byte) : outcome (list byte) :=
  match fuel with
  | O => OutOfFuel
  | S fuel => match strfind h n with
              | Oob => Abort
              | Nowhere => Done (ret ++ h)
              | At i => match pre h i, post h (i + length n) with
                        | Some p, Some h => replace_loop fuel h n r ((ret ++ p) ++ r)
                        | _, _ => Abort
                        end
              end
  end.
Definition strreplace (fuel : nat) (h n r : list byte) : outcome (list byte) :=
  if (0 <? length n)%nat then replace_loop fuel h n r [] else Abort.

(* the loop of strcmp, lib/std/cmp.myr:35-41: Some = answer, None = fell through *)
Fixpoint cmp_loop (r i : nat) (a b : list byte) : option order :=
  match r with
  | O => None
  | S r => let x := nth i a 0 in let y := nth i b 0 in
           if x <? y then Some Before else if y <? x then Some After else cmp_loop r (S i) a b
  end.
(* strcmp, lib/std/cmp.myr:31-50 *)
Definition strcmp (a b : list byte) : order :=
  match cmp_loop (Nat.min (length a) (length b)) 0 a b with
  | Some o => o
  | None => if (length a <? length b)%nat then Before else if (length b <? length a)%nat then After else Equal
  end.
(* strncmp, lib/std/cmp.myr:52-56, for n >= 0 *)
Definition strncmp (a b : list byte) (n : nat) : order :=
  strcmp (firstn (Nat.min (length a) n) a) (firstn (Nat.min (length b) n) b).
(* hasprefix, lib/std/hasprefix.myr:7-12 *)
Definition hasprefix (s p : list byte) : bool := match strncmp s p (length p) with Equal => true | _ => false end.
(* eq on byte slices: lengths and memeq, lib/std/sleq.myr:83-89 *)
Fixpoint memeq (a b : list byte) : bool :=
  match a, b with x :: a, y :: b => (x =? y) && memeq a b | _, _ => true end.
Definition sleq (a b : list byte) : bool := if (length a =? length b)%nat then memeq a b else false.
(* hassuffix, lib/std/hassuffix.myr:8-16 *)
Definition hassuffix (s suff : list byte) : bool :=
  if (length suff <=? length s)%nat then sleq (skipn (length s - length suff) s) suff else false.
(* chomp, lib/std/chomp.myr:7-14: new string and answer *)
Definition chomp (s p : list byte) : list byte * bool :=
  if hasprefix s p then (skipn (length p) s, true) else (s, false).

(* strcasecmp, lib/std/cmp.myr:59-80; toupper is a table lookup (lib/std/chartype.myr), a parameter *)
Fixpoint strcasecmp (toupper : N -> N) (fuel : nat) (a b : list byte) : option order :=
  match fuel with
  | O => None
  | S fuel =>
      if (0 <? length a)%nat && (0 <? length b)%nat then
        let '(ca, a) := charstep a in
        let '(cb, b) := charstep b in
        let ca := toupper ca in let cb := toupper cb in
        if ca <? cb then Some Before else if cb <? ca then Some After else strcasecmp toupper fuel a b
      else Some (if (length a <? length b)%nat then Before else if (length b <? length a)%nat then After else Equal)
  end.
