(* Model of the memory allocator, lib/std/bytealloc.myr (bytealloc, bytefree and everything below them).

   Memory is a function from addresses to words; the allocator only loads and stores words at multiples of 8.  The heads
   of slabs and the links of the free lists are in that memory, as are the blocks handed out.  [mapped] says which
   addresses the operating system has mapped; a load or a store elsewhere is a crash (Segv).  The tables [buckets] and
   [bigcache] are static variables outside this memory.
   Simplifications: addresses and sizes are unbounded integers (sizes are below 2^62 and addresses below 2^63, so no
   computation here wraps, except in [bktnum]); tracing is left out; [buckets] has its 14 initialised entries only.
   The memory lock makes each call below one step, see Alloc_Spec. *)
From Verif Require Import Base.
Open Scope Z_scope.

Definition Align : Z := 16.                                            (* bytealloc.myr:24 *)
Definition Slabsz : Z := 512 * 1024.                                   (* :33 *)
Definition Cachemax : Z := 4.                                          (* :34 *)
Definition Bktmax : Z := 128 * 1024.                                   (* :35 *)
Definition Pagesz : Z := 4 * 1024.                                     (* :36 *)
Definition magic : Z := 17519034343917.                                (* 0xfee1baff1ed, :301 *)
Definition sizeof_slab : Z := 48.                                      (* six words, :51-58 *)
Definition ohead : Z := 0.
Definition onext : Z := 8.
Definition oprev : Z := 16.
Definition ofreehd : Z := 24.
Definition onfree : Z := 32.
Definition omagic : Z := 40.

(* align, :444-446 *)
Definition align (v a : Z) : Z := Z.land (v + a - 1) (Z.lnot (a - 1)).
(* mtrunc, :460-462 *)
Definition mtrunc (m a : Z) : Z := Z.land m (Z.lnot (a - 1)).

(* struct bucket, :43-49; sz and nper are set once, by bktinit (:260-266) called from __init__ (:70-74) *)
Record bucket := { b_slabs : Z; b_cache : Z; b_ncache : Z }.
Definition bsz (i : nat) : Z := align (Z.shiftl Align (Z.of_nat i)) Align.
Definition nper (i : nat) : Z := (Slabsz - sizeof_slab) / bsz i.
Definition nbkts : nat := 14.

Record st := { mem : Z -> Z; mapped : Z -> bool; bkts : list bucket; big : list (Z * Z) (* size, address *) }.
Definition bkt0 : bucket := {| b_slabs := 0; b_cache := 0; b_ncache := 0 |}.
Definition initial (m : Z -> Z) (mp : Z -> bool) : st :=
  {| mem := m; mapped := mp; bkts := repeat bkt0 nbkts; big := repeat (0, 0) 32 |}.

Inductive out (A : Type) := Ok (a : A) (s : st) | Segv | Die.
Arguments Ok {A}. Arguments Segv {A}. Arguments Die {A}.
Definition act (A : Type) := st -> out A.
Definition ret {A} (a : A) : act A := fun s => Ok a s.
Definition bind {A B} (x : act A) (k : A -> act B) : act B :=
  fun s => match x s with Ok a s => k a s | Segv => Segv | Die => Die end.
Notation "x <- a ;; k" := (bind a (fun x => k)) (at level 100, a at next level, right associativity).
Notation "a ;;; k" := (bind a (fun _ => k)) (at level 100, right associativity).

Definition mupd (m : Z -> Z) (a v : Z) : Z -> Z := fun x => if x =? a then v else m x.
Definition load (a : Z) : act Z := fun s => if mapped s a then Ok (mem s a) s else Segv.
Definition store (a v : Z) : act unit := fun s =>
  if mapped s a then Ok tt {| mem := mupd (mem s) a v; mapped := mapped s; bkts := bkts s; big := big s |} else Segv.
Definition die {A} : act A := fun _ => Die.
Definition getb (i : nat) : act bucket := fun s => Ok (nth i (bkts s) bkt0) s.
Definition setb (i : nat) (b : bucket) : act unit := fun s =>
  Ok tt {| mem := mem s; mapped := mapped s; bkts := upd (bkts s) i b; big := big s |}.
Definition setslabs (i : nat) (v : Z) : act unit :=
  b <- getb i ;; setb i {| b_slabs := v; b_cache := b_cache b; b_ncache := b_ncache b |}.
Definition setcache (i : nat) (v n : Z) : act unit :=
  b <- getb i ;; setb i {| b_slabs := b_slabs b; b_cache := v; b_ncache := n |}.
Definition within (p n a : Z) : bool := (p <=? a) && (a <? p + n).
(* freemem, syswrap+posixy.myr:138 (munmap) *)
Definition freemem (p n : Z) : act unit := fun s =>
  Ok tt {| mem := mem s; mapped := fun a => mapped s a && negb (within p n a); bkts := bkts s; big := big s |}.

Section Os.
(* what the operating system answers when asked for so many bytes (None: Failmem), and what new memory contains *)
Variable os : Z -> option Z.
Variable fill : Z -> Z.
(* getmem, syswrap+posixy.myr:134-137 (mmap) *)
Definition getmem (n : Z) : act (option Z) := fun s =>
  match os n with
  | None => Ok None s
  | Some p => Ok (Some p) {| mem := fun a => if within p n a then fill a else mem s a;
                             mapped := fun a => mapped s a || within p n a; bkts := bkts s; big := big s |}
  end.

(* the loop of mkslab, :306-310, ending with the last chunk [b] (Zchunk = 0 if there was none) *)
Fixpoint chunks (n : nat) (sz b bnext : Z) : act Z :=
  match n with
  | O => ret b
  | S n => store bnext (bnext + sz) ;;; chunks n sz bnext (bnext + sz)
  end.
(* mkslab, :269-313 *)
Definition mkslab (i : nat) : act Z :=
  b <- getb i ;;
  if 0 <? b_ncache b then
    let s := b_cache b in
    nx <- load (s + onext) ;;
    setcache i nx (b_ncache b - 1) ;;;
    store (s + onext) 0 ;;;
    ret s
  else
    r <- getmem (Slabsz * 2) ;;
    match r with
    | None => die
    | Some p =>
        let s := align p Slabsz in
        store (s + ohead) p ;;;
        store (s + onfree) (nper i) ;;;
        store (s + onext) 0 ;;;
        store (s + oprev) 0 ;;;
        store (s + omagic) magic ;;;
        let bnext := s + align sizeof_slab Align in
        store (s + ofreehd) bnext ;;;
        b <- chunks (Z.to_nat (nper i)) (bsz i) 0 bnext ;;
        store b 0 ;;;
        ret s
    end.
(* bktalloc, :333-343: the first chunk of the slab *)
Definition grab (i : nat) (s : Z) : act Z :=
  c <- load (s + ofreehd) ;;
  nx <- load c ;;
  store (s + ofreehd) nx ;;;
  n <- load (s + onfree) ;;
  store (s + onfree) (n - 1) ;;;
  if nx =? 0 then
    t <- load (s + onext) ;;
    setslabs i t ;;;
    if t =? 0 then ret c else store (t + oprev) 0 ;;; ret c
  else ret c.
(* bktalloc, :320-344; the test for mkslab returning null is left out (mkslab does not) *)
Definition bktalloc (i : nat) : act Z :=
  b <- getb i ;;
  if b_slabs b =? 0 then s <- mkslab i ;; setslabs i s ;;; grab i s
  else grab i (b_slabs b).

(* bigalloc, :168-207: the search of the cache *)
Fixpoint takebig (sz : Z) (l : list (Z * Z)) : option (Z * list (Z * Z)) :=
  match l with
  | [] => None
  | (csz, p) :: l =>
      if sz <? csz then Some (p, (csz - sz, p + sz) :: l)
      else match takebig sz l with Some (q, l) => Some (q, (csz, p) :: l) | None => None end
  end.
Definition bigalloc (sz : Z) : act Z := fun s =>
  let sz := align sz Pagesz in
  match takebig sz (big s) with
  | Some (p, l) => Ok p {| mem := mem s; mapped := mapped s; bkts := bkts s; big := l |}
  | None => match getmem sz s with Ok (Some p) s => Ok p s | Ok None _ => Die | Segv => Segv | Die => Die end
  end.

(* bktnum, :401-417: arithmetic on uint32 *)
Definition bitpos : list Z :=
  [0; 9; 1; 10; 13; 21; 2; 29; 11; 14; 16; 18; 22; 25; 3; 30; 8; 12; 20; 28; 15; 17; 24; 7; 19; 27; 23; 6; 26; 5; 4; 31].
Definition bktnum (sz : Z) : nat :=
  let v := if 0 <? sz then Z.shiftr (sz - 1) 3 mod 2 ^ 32 else 0 in
  let v := Z.lor v (Z.shiftr v 1) in
  let v := Z.lor v (Z.shiftr v 2) in
  let v := Z.lor v (Z.shiftr v 4) in
  let v := Z.lor v (Z.shiftr v 8) in
  let v := Z.lor v (Z.shiftr v 16) in
  Z.to_nat (nth (Z.to_nat (Z.shiftr ((v * 130329821) mod 2 ^ 32) 27)) bitpos 0).

(* bytealloc, :126-143 *)
Definition bytealloc (sz : Z) : act Z :=
  if sz <=? Bktmax then bktalloc (bktnum sz) else bigalloc sz.
End Os.

(* bktfree, :392-394: the chunk becomes the first free one *)
Definition putback (s m : Z) : act unit :=
  nf <- load (s + onfree) ;;
  store (s + onfree) (nf + 1) ;;;
  fh <- load (s + ofreehd) ;;
  store m fh ;;;
  store (s + ofreehd) m ;;;
  ret tt.
(* :376-390: the slab is kept in the cache or given back *)
Definition retire (i : nat) (s : Z) : act unit :=
  b <- getb i ;;
  if b_ncache b <? Cachemax then
    store (s + onext) (b_cache b) ;;;
    store (s + oprev) 0 ;;;
    setcache i s (b_ncache b + 1) ;;;
    ret tt
  else
    h <- load (s + ohead) ;;
    freemem h (Slabsz * 2).
(* :366-375: the slab is taken off the list *)
Definition unlink (i : nat) (s : Z) : act unit :=
  nx <- load (s + onext) ;;
  pv <- load (s + oprev) ;;
  (if nx =? 0 then ret tt else store (nx + oprev) pv) ;;;
  (if pv =? 0 then ret tt else store (pv + onext) nx) ;;;
  b <- getb i ;;
  if b_slabs b =? s then setslabs i nx ;;; ret tt else ret tt.
(* bktfree, :352-395 *)
Definition bktfree (i : nat) (m : Z) : act unit :=
  let s := mtrunc m Slabsz in
  mg <- load (s + omagic) ;;
  if negb (mg =? magic) then die else
  nf <- load (s + onfree) ;;
  if nf =? 0 then
    b <- getb i ;;
    (if b_slabs b =? 0 then ret tt else store (b_slabs b + oprev) s) ;;;
    store (s + onext) (b_slabs b) ;;;
    store (s + oprev) 0 ;;;
    setslabs i s ;;;
    putback s m
  else if nf =? nper i - 1 then unlink i s ;;; retire i s
  else putback s m.

(* bigfree, :209-257: the loop over the cache; the result is the new cache and the block to evict (index, size, address) *)
Fixpoint bigscan (p sz : Z) (l : list (Z * Z)) (i : nat) (ev : option nat * Z * Z) : list (Z * Z) * (option nat * Z * Z) :=
  match l with
  | [] => ([], ev)
  | (csz, q) :: l =>
      if q =? p + sz then ((csz + sz, p) :: l, (None, 0, snd ev))
      else if q + csz =? p then ((csz + sz, q) :: l, (None, 0, snd ev))
      else
        let ev := if csz <? snd (fst ev) then (Some i, csz, q) else ev in
        let (l, ev) := bigscan p sz l (S i) ev in ((csz, q) :: l, ev)
  end.
(* The block that is to be unmapped after the lock is released, if any, is the result. *)
Definition bigfree (p sz : Z) : act (option (Z * Z)) := fun s =>
  let sz := align sz Pagesz in
  let (l, ev) := bigscan p sz (big s) 0 (None, sz, p) in
  let l := match fst (fst ev) with Some i => upd l i (sz, p) | None => l end in
  Ok (if 0 <? snd (fst ev) then Some (snd ev, snd (fst ev)) else None)
     {| mem := mem s; mapped := mapped s; bkts := bkts s; big := l |}.
(* bytefree, :146-166.  Filling the block with 0xa8 before it is given back is a write of the owner. *)
Definition bytefree (p sz : Z) : act (option (Z * Z)) :=
  if p =? 0 then ret None
  else if sz <=? Bktmax then bktfree (bktnum sz) p ;;; ret None
  else bigfree p sz.

(* allocsz, :423-438 *)
Fixpoint allocsz_f (f : nat) (bktsz sz : Z) : option Z :=
  match f with
  | O => None
  | S f => if bktsz <=? Bktmax then if sz <=? bktsz then Some bktsz else allocsz_f f (bktsz * 2) sz else None
  end.
Definition allocsz (sz : Z) : option Z :=
  if sz <=? Bktmax then allocsz_f 64 Align sz else Some (align sz Pagesz).
