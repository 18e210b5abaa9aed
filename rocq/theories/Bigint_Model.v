(* Model of lib/std/bigint.myr.  A bigint# is its struct; functions that update their first argument return its new
   contents.  Loops over all digits of a slice are recursions over the list of digits; loops that run to another bound
   or copy digits within a slice keep their index.  Memory management (slfree, bigfree) is not modelled, and the
   arguments of a binary operation are taken to be distinct objects. *)
From Verif Require Import Base Word Endian_Model Sort_Model.
From Verif Require Utf_Model Str_Model IntFmt_Model.
Open Scope Z_scope.

(* type bigint, lib/std/bigint.myr:19-22 *)
Record big := mkbig { dig : list Z; sign : Z }.
Definition Base : Z := 0x100000000.        (* :95 *)
Definition Kmin : nat := 64.               (* :96 *)

(* Die: a call of die; Fault: an index outside a slice (the program aborts); NoFuel: excluded by the theorems *)
Inductive out (A : Type) := Ok (a : A) | Die | Fault | NoFuel.
Arguments Ok {A}. Arguments Die {A}. Arguments Fault {A}. Arguments NoFuel {A}.
Definition bind {A B} (x : out A) (f : A -> out B) : out B :=
  match x with Ok a => f a | Die => Die | Fault => Fault | NoFuel => NoFuel end.
Notation "'let*' x ':=' e 'in' f" := (bind e (fun x => f)) (at level 200, x name, right associativity).
Notation "'let2*' x ',' y ':=' e 'in' f" := (bind e (fun p => let '(x, y) := p in f)) (at level 200, x name, y name, right associativity).
Definition at_ (l : list Z) (i : nat) : out Z := match nth_error l i with Some x => Ok x | None => Fault end.

(* trim, :1012-1025 *)
Fixpoint trimdig (l : list Z) : list Z :=
  match l with
  | [] => []
  | d :: l => match trimdig l with
              | [] => if d =? 0 then [] else [d]
              | t => d :: t
              end
  end.
Definition trim (a : big) : big :=
  let d := trimdig (dig a) in mkbig d (match d with [] => 0 | _ => sign a end).

(* slzgrow, lib/std/alloc.myr: extend with zeros to length n (never called with a smaller n) *)
Definition zgrow (l : list Z) (n : nat) : list Z := l ++ repeat 0 (n - length l).

(* mkbigint at integer type t, :98-116 *)
Definition mkbigint (t : ity) (v : Z) : big :=
  let '(s, v) := if v <? 0 then (-1, cast t (- v)) else if 0 <? v then (1, v) else (0, v) in
  let val := cast uint64 v in
  let d := [cast uint32 val] in
  trim (mkbig (if Base <=? val then d ++ [cast uint32 (val / Base)] else d) s).
(* bigdigit, :992-1009; how the ...i functions convert their integer, e.g. :348-349 *)
Definition bigdigit (isneg : bool) (val : Z) : big :=
  let '(s, val) := if isneg then (-1, cast uint64 (- val)) else (1, val) in
  if val =? 0 then mkbig [] 0
  else if val <? Base then mkbig [cast uint32 val] s
  else mkbig [cast uint32 val; cast uint32 (Z.shiftr val 32)] s.
Definition bigofint (t : ity) (b : Z) : big := bigdigit (b <? 0) (cast uint64 b).

(* bigfrombytes, :118-142.  The shifts are at type byte: a byte shifted by 8 or more is 0. *)
Definition bshl (b k : Z) : Z := cast uint8 (Z.shiftl b k).
Definition bigfrombytes (isneg : bool) (v : list Z) : big :=
  let g i := nth i v 0 in
  let n4 := (length v / 4)%nat in
  let digs := map (fun k => let i := (4 * k)%nat in
                    Z.lor (Z.lor (Z.lor (bshl (g i) 0) (bshl (g (i + 1)%nat) 8)) (bshl (g (i + 2)%nat) 16)) (bshl (g (i + 3)%nat) 24))
                  (seq 0 n4) in
  let last := fold_left (fun last i => let off := (i mod 4)%nat in Z.lor last (cast uint32 (Z.shiftl (g off) (8 * Z.of_nat off))))
                        (seq (4 * n4) (length v - 4 * n4)) 0 in
  trim (mkbig (digs ++ [last]) (if isneg then -1 else 1)).

(* bigclear, :174-179 *)
Definition bigclear : big := mkbig [] 0.
(* bigiszero, bigiseven, :292-294, 296-298 *)
Definition bigiszero (v : big) : bool := (length (dig v) =? 0)%nat.
Definition bigiseven (v : big) : bool := match dig v with [] => true | d :: _ => Z.land d 1 =? 0 end.
(* bigeq, :300-310 *)
Definition bigeq (a b : big) : bool :=
  if negb (sign a =? sign b) || negb (length (dig a) =? length (dig b))%nat then false
  else forallb (fun p => fst p =? snd p) (combine (dig a) (dig b)).

(* signedorder, :435-443 *)
Definition signedorder (s : Z) : order := if s <? 0 then Before else if s =? 0 then Equal else After.
(* the comparison loops, :407-413 and :424-430, from the top digit down; None: all digits equal *)
Fixpoint cmpdig (a b : list Z) : option Z :=
  match a, b with
  | x :: a, y :: b => match cmpdig a b with
                      | Some d => Some d
                      | None => if x =? y then None else Some (x - y)
                      end
  | _, _ => None
  end.
(* bigcmp, :392-416 *)
Definition bigcmp (a b : big) : order :=
  let sa := sign a in let sb := sign b in
  if sa <? sb then Before
  else if sb <? sa then After
  else if (length (dig a) <? length (dig b))%nat then signedorder (- sa)
  else if (length (dig b) <? length (dig a))%nat then signedorder sa
  else match cmpdig (dig a) (dig b) with Some d => signedorder (sa * d) | None => Equal end.
(* bigcmpabs, :418-433 *)
Definition bigcmpabs (a b : big) : order :=
  if (length (dig a) <? length (dig b))%nat then Before
  else if (length (dig b) <? length (dig a))%nat then After
  else match cmpdig (dig a) (dig b) with Some d => signedorder d | None => Equal end.
(* biglt, bigle, biggt, bigge, :312-342 *)
Definition biglt a b := match bigcmp a b with Before => true | _ => false end.
Definition bigle a b := match bigcmp a b with Before | Equal => true | _ => false end.
Definition biggt a b := match bigcmp a b with After => true | _ => false end.
Definition bigge a b := match bigcmp a b with After | Equal => true | _ => false end.
(* bigcmpi, bigeqi, :384-390, 344-350 *)
Definition bigcmpi t a b := bigcmp a (bigofint t b).
Definition bigeqi t a b := bigeq a (bigofint t b).

(* the loop of uadd, :477-489, and the final a.dig[i] += carry, :490; n iterations left *)
Fixpoint uadd_loop (n : nat) (a b : list Z) (carry : Z) : out (list Z) :=
  match n, a with
  | O, x :: a => Ok (cast uint32 (x + cast uint32 carry) :: a)
  | S n, x :: a =>
      let v := cast uint64 (x + carry) in
      let v := match b with [] => v | y :: _ => cast uint64 (v + y) end in
      let carry := if Base <=? v then 1 else 0 in
      let* r := uadd_loop n a (tl b) carry in Ok (cast uint32 v :: r)
  | _, [] => Fault
  end.
(* uadd, :468-492 *)
Definition uadd (a b : big) : out big :=
  let n := Nat.max (length (dig a)) (length (dig b)) in
  let* d := uadd_loop n (zgrow (dig a) (n + 1)) (dig b) 0 in Ok (trim (mkbig d (sign a))).
(* usub, :523-541 *)
Fixpoint usub_loop (a b : list Z) (carry : Z) : list Z :=
  match a with
  | [] => []
  | x :: a =>
      let v := cast int64 (x - carry) in
      let v := match b with [] => v | y :: _ => cast int64 (v - y) end in
      cast uint32 v :: usub_loop a (tl b) (if v <? 0 then 1 else 0)
  end.
Definition usub (a b : big) : big := trim (mkbig (usub_loop (dig a) (dig b) 0) (sign a)).
(* bigadd, :446-465: a += b *)
Definition bigadd (a b : big) : out big :=
  if (sign a =? sign b) || (sign a =? 0) then uadd (mkbig (dig a) (sign b)) b
  else if sign b =? 0 then Ok a
  else match bigcmpabs a b with
       | Before => Ok (usub b (mkbig (dig a) (sign b)))
       | After => Ok (usub a b)
       | Equal => Ok bigclear
       end.
(* bigsub, :495-520: a -= b *)
Definition bigsub (a b : big) : out big :=
  if sign a =? 0 then Ok (mkbig (dig b) (- sign b))
  else if sign b =? 0 then Ok a
  else if negb (sign a =? sign b) then uadd a b
  else match bigcmpabs a b with
       | Before => let r := usub b a in Ok (mkbig (dig r) (-1 * sign b))
       | After => Ok (usub a b)
       | Equal => Ok bigclear
       end.

(* bigshli, :918-946.  i = off + k in the copy loop. *)
Fixpoint blit_up (k off : nat) (d : list Z) : list Z :=
  match k with
  | O => d
  | S k => blit_up k off (upd d (off + k) (nth k d 0))
  end.
Fixpoint clear_low (k : nat) (d : list Z) : list Z := match k with O => d | S k => clear_low k (upd d k 0) end.
Fixpoint shl_loop (d : list Z) (shift carry : Z) : list Z :=
  match d with
  | [] => []
  | x :: d => let t := cast uint64 (Z.shiftl x shift) in
              cast uint32 (Z.lor t carry) :: shl_loop d shift (Z.shiftr t 32)
  end.
Definition bigshli (a : big) (s : Z) : big :=     (* s >= 0: otherwise iassert fails *)
  let off := Z.to_nat (s / 32) in let shift := s mod 32 in
  if sign a =? 0 then a
  else
    let n := (1 + length (dig a) + off)%nat in
    let d := zgrow (dig a) n in
    let d := blit_up (n - off) off d in
    let d := clear_low off d in
    trim (mkbig (shl_loop d shift 0) (sign a)).
(* bigshri, :949-975 *)
Fixpoint blit_down (k i off : nat) (d : list Z) : list Z :=      (* k iterations left *)
  match k with
  | O => d
  | S k => blit_down k (S i) off (upd d i (nth (i + off) d 0))
  end.
Fixpoint shr_loop (d : list Z) (shift : Z) : list Z * Z :=       (* from the top digit down *)
  match d with
  | [] => ([], 0)
  | x :: d => let '(d, carry) := shr_loop d shift in
              (cast uint32 (Z.lor carry (Z.shiftr x shift)) :: d, cast uint64 (Z.shiftl x (32 - shift)))
  end.
Definition bigshri (a : big) (s : Z) : big :=
  let off := Z.to_nat (s / 32) in let shift := s mod 32 in
  let n := length (dig a) in
  if (n <? off)%nat then trim (mkbig [] (sign a))
  else
    let d := firstn (n - off) (blit_down (n - off) 0 off (dig a)) in
    trim (mkbig (fst (shr_loop d shift)) (sign a)).
(* bigshl, bigshr, :849-855, 858-864 *)
Definition bigshl (a b : big) : out big := match dig b with [] => Ok a | [d] => Ok (bigshli a d) | _ => Die end.
Definition bigshr (a b : big) : out big := match dig b with [] => Ok a | [d] => Ok (bigshri a d) | _ => Die end.

(* the inner loop of smallmul, :634-645 in terms of w[j:]; then w[i + j] = carry *)
Fixpoint mulrow (a : list Z) (bj : Z) (w : list Z) (carry : Z) : out (list Z) :=
  match a, w with
  | x :: a, y :: w =>
      let t := cast uint64 (cast uint64 (cast uint64 (x * bj) + y) + carry) in
      let* r := mulrow a bj w (Z.shiftr t 32) in Ok (cast uint32 t :: r)
  | [], y :: w => Ok (cast uint32 carry :: w)
  | _, [] => Fault
  end.
(* the outer loop; w is w[j:]: digits below j are final *)
Fixpoint mulrows (a b w : list Z) : out (list Z) :=
  match b with
  | [] => Ok w
  | bj :: b => let* w := mulrow a bj w 0 in
               match w with
               | [] => Fault
               | w0 :: w => let* r := mulrows a b w in Ok (w0 :: r)
               end
  end.
Definition smallmul (a b : big) : out big :=
  let* w := mulrows (dig a) (dig b) (repeat 0 (length (dig a) + length (dig b))) in Ok (trim (mkbig w (sign a))).

(* umul, :564-574, with kmul, :576-625, inlined; returns the new a *)
Fixpoint umul (fuel : nat) (a b : big) : out big :=
  if (length (dig a) <? Kmin)%nat || (length (dig b) <? Kmin)%nat then smallmul a b
  else match fuel with
  | O => NoFuel
  | S fuel =>
      let '(a, b) := if (length (dig a) <? length (dig b))%nat then (b, a) else (a, b) in
      let n := Nat.min (length (dig a) / 2) (length (dig b) - 1) in
      let x0 := mkbig (firstn n (dig a)) 1 in
      let x1 := mkbig (skipn n (dig a)) 1 in
      let y0 := mkbig (firstn n (dig b)) 1 in
      let y1 := mkbig (skipn n (dig b)) 1 in
      let* z0 := umul fuel (trim x0) y0 in
      let* z2 := umul fuel (trim x1) y1 in
      let* z1 := bigsub (trim x0) x1 in
      let z1sign := sign z1 in
      let* t0 := bigsub y1 y0 in
      let* z1 := umul fuel z1 t0 in
      let z1 := mkbig (dig z1) (z1sign * sign t0) in
      let* z1 := bigadd z1 z0 in
      let* z1 := bigadd z1 z2 in
      let z1 := bigshli z1 (32 * Z.of_nat n) in
      let z2 := bigshli z2 (32 * 2 * Z.of_nat n) in
      let* r := bigadd bigclear z0 in
      let* r := bigadd r z1 in
      bigadd r z2
  end.
Definition mulfuel (a b : big) : nat := S (length (dig a) + length (dig b)).
(* bigmul, :544-562 *)
Definition bigmul (a b : big) : out big :=
  if (sign a =? 0) || (sign b =? 0) then Ok bigclear
  else
    let s := if negb (sign a =? sign b) then -1 else 1 in
    let* a := umul (mulfuel a b) a b in Ok (trim (mkbig (dig a) s)).

(* nlz, :817-845 *)
Definition nlz (a : Z) : Z :=
  if a =? 0 then 32
  else
    let '(n, a) := (0, a) in
    let '(n, a) := if a <=? 0x0000ffff then (n + 16, cast uint32 (Z.shiftl a 16)) else (n, a) in
    let '(n, a) := if a <=? 0x00ffffff then (n + 8, cast uint32 (Z.shiftl a 8)) else (n, a) in
    let '(n, a) := if a <=? 0x0fffffff then (n + 4, cast uint32 (Z.shiftl a 4)) else (n, a) in
    let '(n, a) := if a <=? 0x3fffffff then (n + 2, cast uint32 (Z.shiftl a 2)) else (n, a) in
    let '(n, a) := if a <=? 0x7fffffff then (n + 1, cast uint32 (Z.shiftl a 1)) else (n, a) in
    n.

(* ---------- bigdivmod ---------- *)
(* the single digit loop, :699-707, from the top digit down *)
Fixpoint div1 (a : list Z) (b0 : Z) : list Z * Z :=
  match a with
  | [] => ([], 0)
  | aj :: a =>
      let '(q, carry) := div1 a b0 in
      let t := cast uint64 (cast uint64 (Z.shiftl carry 32) + aj) in
      let qj := cast uint32 (t / b0) in
      (qj :: q, cast uint64 (t - cast uint64 (qj * b0)))
  end.
(* divagain, :734-741 *)
Fixpoint qadjust (fuel : nat) (qhat rhat z w t : Z) : out Z :=
  match fuel with
  | O => NoFuel
  | S fuel =>
      if (Base <=? qhat) || (cast uint64 (cast uint64 (rhat * Base) + t) <? cast uint64 (qhat * w))
      then let qhat := cast uint64 (qhat - 1) in let rhat := cast uint64 (rhat + z) in
           if rhat <? Base then qadjust fuel qhat rhat z w t else Ok qhat
      else Ok qhat
  end.
(* multiply and subtract on u.dig[j:], :743-755; also returns the last t *)
Fixpoint mulsub (qhat : Z) (v u : list Z) (carry : Z) : out (list Z * Z) :=
  match v, u with
  | vi :: v, ui :: u =>
      let p := cast uint64 (qhat * vi) in
      let t := cast uint64 (cast uint64 (ui - carry) - p mod Base) in
      let tt := Z.shiftr (cast int64 t) 32 in
      let pt := Z.shiftr p 32 in
      let carry := cast uint64 (cast int64 (cast int64 pt - tt)) in
      let2* u , t' := mulsub qhat v u carry in Ok (cast uint32 t :: u, t')
  | [], ui :: u => let t := cast uint64 (ui - carry) in Ok (cast uint32 t :: u, t)
  | _, [] => Fault
  end.
(* add back on u.dig[j:], :761-767 *)
Fixpoint addback (v u : list Z) (carry : Z) : out (list Z) :=
  match v, u with
  | vi :: v, ui :: u =>
      let t := cast uint64 (cast uint64 (ui + vi) + carry) in
      let* r := addback v u (Z.shiftr t 32) in Ok (cast uint32 t :: r)
  | [], ui :: u => Ok (cast uint32 (ui + cast uint32 carry) :: u)
  | _, [] => Fault
  end.
(* the main loop, j = k - 1 downto 0; q.dig[j] is assigned once per j, so the digits assigned so far are a list *)
Fixpoint divloop (k : nat) (v u : list Z) (q : list Z) : out (list Z * list Z) :=
  match k with
  | O => Ok (u, q)
  | S j =>
      let n := length v in
      let* x := at_ u (j + n) in
      let* y := at_ u (j + n - 1) in
      let* z := at_ v (n - 1) in
      let* w := at_ v (n - 2) in
      let* t := at_ u (j + n - 2) in
      let xy := cast uint64 (cast uint64 (x * Base) + y) in
      let qhat := xy / z in
      let rhat := cast uint64 (xy - cast uint64 (qhat * z)) in
      let* qhat := qadjust 4 qhat rhat z w t in
      let2* hi , t := mulsub qhat v (skipn j u) 0 in
      let qj := cast uint32 qhat in
      if cast int64 t <? 0
      then let* hi := addback v hi 0 in divloop j v (firstn j u ++ hi) (cast uint32 (qj - 1) :: q)
      else divloop j v (firstn j u ++ hi) (qj :: q)
  end.
(* bigdivmod, :668-775: (quotient, remainder).  q.dig has max(a.dig.len, b.dig.len) + 1 digits; those never
   assigned are zero. *)
Definition bigdivmod (a b : big) : out (big * big) :=
  if bigiszero b then Die
  else if (length (dig a) <? length (dig b))%nat then Ok (mkbigint int32 0, a)
  else
    let qsign := if negb (sign a =? sign b) then -1 else 1 in
    match dig b with
    | [b0] =>
        let '(q, carry) := div1 (dig a) b0 in
        Ok (trim (mkbig (q ++ [0]) qsign), trim (mkbigint uint64 carry))
    | _ =>
        let m := length (dig a) in let n := length (dig b) in
        let* top := at_ (dig b) (n - 1) in
        let shift := nlz top in
        let u := bigshli a shift in
        let v := bigshli b shift in
        let ud := zgrow (dig u) (length (dig u) + 1) in
        let2* ud , q := divloop (m - n + 1) (dig v) ud [] in
        Ok (trim (mkbig (zgrow q (m + 1)) qsign), trim (bigshri (mkbig ud (sign u)) shift))
    end.
(* bigdiv, bigmod, :651-657, 659-665 *)
Definition bigdiv (a b : big) : out big := let2* q , r := bigdivmod a b in Ok q.
Definition bigmod (a b : big) : out big := let2* q , r := bigdivmod a b in Ok r.

(* bigaddi .. bigmodi, :869-912 *)
Definition bigaddi t a b := bigadd a (bigofint t b).
Definition bigsubi t a b := bigsub a (bigofint t b).
Definition bigmuli t a b := bigmul a (bigofint t b).
Definition bigdivi t a b := bigdiv a (bigofint t b).
Definition bigmodi t a b := bigmod a (bigofint t b).

(* bigand, :777-788: new a and new b *)
Definition bigand (a b : big) : big * big :=
  let bd := if (length (dig b) <? length (dig a))%nat then zgrow (dig b) (length (dig a)) else dig b in
  let ad := if (length (dig a) <? length bd)%nat then zgrow (dig a) (length bd) else dig a in
  (trim (mkbig (map (fun p => Z.land (fst p) (snd p)) (combine ad bd)) (sign a)), mkbig bd (sign b)).
(* bigor, :790-796; the digits of a beyond min(a.dig.len, b.dig.len) are unchanged *)
Fixpoint ordig (a b : list Z) : list Z := match a, b with x :: a, y :: b => Z.lor x y :: ordig a b | _, _ => a end.
Definition bigor (a b : big) : big :=
  trim (mkbig (ordig (zgrow (dig a) (Nat.max (length (dig a)) (length (dig b)))) (dig b)) (sign a)).

(* bigmodpow, :799-814: the result (assigned to base) *)
Fixpoint modpow_loop (fuel : nat) (r base exp mod_ : big) : out big :=
  match fuel with
  | O => NoFuel
  | S fuel =>
      match dig exp with
      | [] => Ok r
      | e0 :: _ =>
          let* r := (if negb (Z.land e0 1 =? 0) then let* r := bigmul r base in bigmod r mod_ else Ok r) in
          let exp := bigshri exp 1 in
          let* base := bigmul base base in
          let* base := bigmod base mod_ in
          modpow_loop fuel r base exp mod_
      end
  end.
Definition bigmodpow (base exp mod_ : big) : out big :=
  modpow_loop (S (32 * length (dig exp))) (mkbigint int32 1) base exp mod_.

(* bigbitcount, :1028-1041: mask = 1 << k; k + 1 values of the mask left (mask is never 0 for a normalised top digit) *)
Fixpoint bitcount_loop (fuel : nat) (top mask len : Z) : out Z :=
  match fuel with
  | O => NoFuel
  | S fuel => if Z.land top mask =? 0 then bitcount_loop fuel top (Z.shiftr mask 1) (len - 1) else Ok len
  end.
Definition bigbitcount (a : big) : out Z :=
  let len := 32 * Z.of_nat (length (dig a)) in
  if 0 <? len then let* top := at_ (dig a) (length (dig a) - 1) in bitcount_loop 32 top (Z.shiftl 1 31) len
  else Ok len.
