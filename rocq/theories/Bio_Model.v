(* Model of lib/bio/bio.myr, lib/bio/geti.myr and lib/bio/puti.myr: buffered files over a device.
   A file keeps a read buffer whose bytes from rstart to rend have been fetched and not yet consumed, and a write
   buffer whose first wend bytes have not reached the device.  Sizes are unbounded naturals. *)
From Verif Require Import Base Utf_Model.
From Coq Require Import NArith.
Open Scope N_scope.

(* lib/bio/types.myr:38-42 *)
Inductive err := Eof | Eio | Ebadf.
Inductive result (A : Type) := Ok (a : A) | Err (e : err).
Arguments Ok {A}. Arguments Err {A}.

(* What the four functions of a vtab (lib/bio/types.myr:31-36) reach, as lib/bio/fd.myr:13-20 fills it: a file with
   one position shared by reads and writes.  Each call uses up one event: Upto k transfers at most k bytes, Fault e
   fails with errno e and transfers nothing; when the events are used up every call transfers all it can. *)
Inductive event := Upto (k : nat) | Fault (e : N).
Record dev := mkdev { data : list byte; pos : nat; events : list event }.
Inductive sysres (A : Type) := SysOk (a : A) | SysErr (e : N).
Arguments SysOk {A}. Arguments SysErr {A}.

Definition limit (ev : event) (n : nat) : nat := match ev with Upto k => min k n | Fault _ => 0%nat end.
Definition devread (d : dev) (n : nat) : dev * sysres (list byte) :=
  let avail := skipn (pos d) (data d) in
  let take k := firstn k avail in
  match events d with
  | [] => (mkdev (data d) (pos d + length (take n)) [], SysOk (take n))
  | Upto k :: es => (mkdev (data d) (pos d + length (take (min k n))) es, SysOk (take (min k n)))
  | Fault e :: es => (mkdev (data d) (pos d) es, SysErr e)
  end.
(* write s at offset p; a gap behind the end of the file is filled with zeros *)
Definition overwrite (f : list byte) (p : nat) (s : list byte) : list byte :=
  firstn p (f ++ repeat 0 (p - length f)) ++ s ++ skipn (p + length s) f.
Definition devwrite (d : dev) (src : list byte) : dev * sysres nat :=
  let put s es := mkdev (match s with [] => data d | _ => overwrite (data d) (pos d) s end) (pos d + length s) es in
  match events d with
  | [] => (put src [], SysOk (length src))
  | Upto k :: es => (put (firstn k src) es, SysOk (length (firstn k src)))
  | Fault e :: es => (mkdev (data d) (pos d) es, SysErr e)
  end.
(* std.seek with Seekset, for offsets that are not negative *)
Definition devseek (d : dev) (off : nat) : dev * sysres nat :=
  match events d with
  | Fault e :: es => (mkdev (data d) (pos d) es, SysErr e)
  | _ :: es => (mkdev (data d) off es, SysOk off)
  | [] => (mkdev (data d) off [], SysOk off)
  end.
Definition devclose (d : dev) : dev * bool :=
  match events d with
  | Fault e :: es => (mkdev (data d) (pos d) es, false)
  | _ :: es => (mkdev (data d) (pos d) es, true)
  | [] => (d, true)
  end.

(* struct file, lib/bio/types.myr:9-29; the two bits of mode are rd and wr, lasterr 0 means none *)
Record file := mkfile { rd : bool; wr : bool; lasterr : N;
                        rbuf : list byte; rstart : nat; rend : nat;
                        wbuf : list byte; wend : nat; dv : dev }.
Definition setdv (f : file) (d : dev) : file :=
  mkfile (rd f) (wr f) (lasterr f) (rbuf f) (rstart f) (rend f) (wbuf f) (wend f) d.
Definition seterr (f : file) (e : N) : file :=
  mkfile (rd f) (wr f) e (rbuf f) (rstart f) (rend f) (wbuf f) (wend f) (dv f).
Definition setr (f : file) (b : list byte) (s e : nat) : file :=
  mkfile (rd f) (wr f) (lasterr f) b s e (wbuf f) (wend f) (dv f).
Definition setw (f : file) (b : list byte) (e : nat) : file :=
  mkfile (rd f) (wr f) (lasterr f) (rbuf f) (rstart f) (rend f) b e (dv f).
Definition setstart (f : file) (s : nat) : file := setr f (rbuf f) s (rend f).

Definition slice (b : list byte) (i j : nat) : list byte := firstn (j - i) (skipn i b).   (* b[i:j] *)
(* std.slcp(b[i:i+src.len], src) *)
Definition blit (b : list byte) (i : nat) (src : list byte) : list byte :=
  firstn i b ++ src ++ skipn (i + length src) b.

Definition Bufsz : nat := N.to_nat 16384.   (* lib/bio/bio.myr:46 *)
Definition Small : nat := N.to_nat 512.     (* lib/bio/bio.myr:47 *)

(* mk, lib/bio/bio.myr:61-82; slalloc leaves the buffers undefined: zeros here *)
Definition mk (r w : bool) (d : dev) : file :=
  mkfile r w 0 (if r then repeat 0 Bufsz else []) 0 0 (if w then repeat 0 Bufsz else []) 0 d.

(* geterr and errtype, lib/bio/bio.myr:605-628; Ebadf is 9 and Einval 22 *)
Definition errtype (e : N) : err := if e =? 9 then Ebadf else if e =? 22 then Ebadf else Eio.

(* the last lines of fill, lib/bio/bio.myr:598-602 *)
Definition finish (count : nat) : result nat := match count with O => Err Eof | _ => Ok count end.

(* the while loop of fill, lib/bio/bio.myr:574-596 *)
Fixpoint fill_loop (fuel : nat) (f : file) (mn count : nat) : outcome (file * result nat) :=
  match fuel with
  | O => OutOfFuel
  | S fuel =>
      if (count <? mn)%nat then
        let '(d, r) := devread (dv f) (length (rbuf f) - rend f) in
        let f := setdv f d in
        match r with
        | SysOk [] => Done (f, finish count)
        | SysOk bs => fill_loop fuel (setr f (blit (rbuf f) (rend f) bs) (rstart f) (rend f + length bs)) mn (count + length bs)
        | SysErr e => match count with
                      | O => Done (f, Err (errtype e))
                      | _ => Done (seterr f e, finish count)
                      end
        end
      else Done (f, finish count)
  end.
(* fill, lib/bio/bio.myr:557-603 *)
Definition fill (f : file) (mn : nat) : outcome (file * result nat) :=
  if negb (lasterr f =? 0) then Done (seterr f 0, Err (errtype (lasterr f)))
  else
    let cap := (rend f - rstart f)%nat in
    let f := if (cap <? mn)%nat then setr f (blit (rbuf f) 0 (slice (rbuf f) (rstart f) (rend f))) 0 cap else f in
    fill_loop (S mn) f mn 0.

(* ensureread, lib/bio/bio.myr:513-531 *)
Definition ensureread (f : file) (n : nat) : outcome (file * result nat) :=
  if (n <? length (rbuf f))%nat then
    let held := (rend f - rstart f)%nat in
    if (held <? n)%nat then
      match fill f n with
      | Done (f, Err e) => Done (f, Err e)
      | Done (f, Ok len) => if (n <=? held + len)%nat then Done (f, Ok len) else Done (f, Err Eof)
      | Abort => Abort
      | OutOfFuel => OutOfFuel
      end
    else Done (f, Ok n)
  else Abort.

(* the while loop of read, lib/bio/bio.myr:173-189: got is dst[:count] and n is d.len *)
Fixpoint read_loop (fuel : nat) (f : file) (got : list byte) (n : nat) : outcome (file * result (list byte)) :=
  let fin := match got with [] => Err Eof | _ => Ok got end in
  match fuel with
  | O => OutOfFuel
  | S fuel =>
      match n with
      | O => Done (f, fin)
      | _ =>
          let '(d, r) := devread (dv f) n in
          let f := setdv f d in
          match r with
          | SysOk [] => Done (f, fin)
          | SysOk bs => read_loop fuel f (got ++ bs) (n - length bs)
          | SysErr e => match got with
                        | [] => Done (f, Err (errtype e))
                        | _ => Done (seterr f e, fin)
                        end
          end
      end
  end.
(* read, lib/bio/bio.myr:137-195: n is dst.len and the result is the slice returned *)
Definition read (f : file) (n : nat) : outcome (file * result (list byte)) :=
  if negb (rd f) then Abort
  else if negb (lasterr f =? 0) then Done (seterr f 0, Err (errtype (lasterr f)))
  else match n with
  | O => Done (f, Ok [])
  | _ =>
      let cap := (rend f - rstart f)%nat in
      let filled := if (n <? Small)%nat && (cap <? n)%nat
                    then match fill f n with
                         | Done (f, _) => Done f
                         | Abort => Abort
                         | OutOfFuel => OutOfFuel
                         end
                    else Done f in
      match filled with
      | Done f =>
          let count := min n (rend f - rstart f) in
          let got := slice (rbuf f) (rstart f) (rstart f + count) in
          let f := setstart f (rstart f + count) in
          let f := if (rstart f =? rend f)%nat then setr f (rbuf f) 0 0 else f in
          read_loop (S (n - count)) f got (n - count)
      | Abort => Abort
      | OutOfFuel => OutOfFuel
      end
  end.

(* lib/bio/bio.myr:250-258 *)
Definition getb (f : file) : outcome (file * result byte) :=
  if negb (rd f) then Abort
  else match ensureread f 1 with
  | Done (f, Err e) => Done (f, Err e)
  | Done (f, Ok _) => Done (setstart f (S (rstart f)), Ok (nth (rstart f) (rbuf f) 0))
  | Abort => Abort
  | OutOfFuel => OutOfFuel
  end.
(* ensurecodepoint, lib/bio/bio.myr:275-297 *)
Definition ensurecodepoint (f : file) : outcome (file * result nat) :=
  match ensureread f 1 with
  | Done (f, Err e) => Done (f, Err e)
  | Done (f, Ok _) =>
      ensureread f (match lead (nth (rstart f) (rbuf f) 0) with Some len => len | None => 1 end)
  | Abort => Abort
  | OutOfFuel => OutOfFuel
  end.
(* lib/bio/bio.myr:261-272 *)
Definition getc (f : file) : outcome (file * result N) :=
  if negb (rd f) then Abort
  else match ensurecodepoint f with
  | Done (f, Err e) => Done (f, Err e)
  | Done (f, Ok _) =>
      let c := decode (slice (rbuf f) (rstart f) (rend f)) in
      Done (setstart f (rstart f + charlen c), Ok c)
  | Abort => Abort
  | OutOfFuel => OutOfFuel
  end.
(* lib/bio/bio.myr:300-306; without the Rd bit rbuf is empty and the assertion in ensureread fails *)
Definition peekb (f : file) : outcome (file * result byte) :=
  match ensureread f 1 with
  | Done (f, Err e) => Done (f, Err e)
  | Done (f, Ok _) => Done (f, Ok (nth (rstart f) (rbuf f) 0))
  | Abort => Abort
  | OutOfFuel => OutOfFuel
  end.
(* lib/bio/bio.myr:309-315 *)
Definition peekc (f : file) : outcome (file * result N) :=
  match ensurecodepoint f with
  | Done (f, Err e) => Done (f, Err e)
  | Done (f, Ok _) => Done (f, Ok (decode (slice (rbuf f) (rstart f) (rend f))))
  | Abort => Abort
  | OutOfFuel => OutOfFuel
  end.

(* readinto, lib/bio/bio.myr:489-493: the bytes appended and the file *)
Definition readinto (f : file) (n : nat) : outcome (file * list byte) :=
  if (rstart f + n <=? rend f)%nat
  then Done (setstart f (rstart f + n), slice (rbuf f) (rstart f) (rstart f + n))
  else Abort.

(* the scan of readln, lib/bio/bio.myr:375-387: where the first '\r' or '\n' is, and which *)
Fixpoint eolscan (b : list byte) (i n : nat) : option (nat * byte) :=
  match n with
  | O => None
  | S n => let c := nth i b 0 in
           if (c =? 13) || (c =? 10) then Some (i, c) else eolscan b (S i) n
  end.
(* the while loop of readln, lib/bio/bio.myr:361-391, ret being what was read so far *)
Fixpoint readln_loop (fuel : nat) (f : file) (ret : list byte) : outcome (file * result (list byte)) :=
  match fuel with
  | O => OutOfFuel
  | S fuel =>
      match ensureread f 1 with
      | Done (f, Err Eof) =>
          match readinto f (rend f - rstart f) with
          | Done (f, bs) => Done (f, match ret ++ bs with [] => Err Eof | l => Ok l end)
          | Abort => Abort
          | OutOfFuel => OutOfFuel
          end
      | Done (f, Err e) => Done (f, Err e)
      | Done (f, Ok _) =>
          match eolscan (rbuf f) (rstart f) (rend f - rstart f) with
          | Some (i, c) =>
              match readinto f (i - rstart f) with
              | Done (f, bs) =>
                  let f := setstart f (S (rstart f)) in
                  if c =? 13 then
                    match peekc f with
                    | Done (f, Ok c') => Done (if c' =? 10 then setstart f (S (rstart f)) else f, Ok (ret ++ bs))
                    | Done (f, Err _) => Done (f, Ok (ret ++ bs))
                    | Abort => Abort
                    | OutOfFuel => OutOfFuel
                    end
                  else Done (f, Ok (ret ++ bs))
              | Abort => Abort
              | OutOfFuel => OutOfFuel
              end
          | None =>
              match readinto f (rend f - rstart f) with
              | Done (f, bs) => readln_loop fuel f (ret ++ bs)
              | Abort => Abort
              | OutOfFuel => OutOfFuel
              end
          end
      | Abort => Abort
      | OutOfFuel => OutOfFuel
      end
  end.
Definition avail (f : file) : nat := (rend f - rstart f + (length (data (dv f)) - pos (dv f)))%nat.
Definition readln (f : file) := readln_loop (S (S (avail f))) f [].

(* enum skipmode, lib/bio/bio.myr:48-52 *)
Inductive skipmode := Drop | Read | Keep.
(* the inner loop of readdelim, lib/bio/bio.myr:434-438 *)
Fixpoint delimhere (b : list byte) (i : nat) (delim : list byte) : bool :=
  match delim with
  | [] => true
  | c :: delim => (nth i b 0 =? c) && delimhere b (S i) delim
  end.
(* the scan of readdelim, lib/bio/bio.myr:433-452, over n start positions: the first match, or the last i *)
Fixpoint delimscan (b : list byte) (i n : nat) (delim : list byte) : nat * bool :=
  match n with
  | O => (i, false)
  | S n => if delimhere b i delim then (i, true) else delimscan b (S i) n delim
  end.
(* the while loop of readdelim, lib/bio/bio.myr:408-459 *)
Fixpoint readdelim_loop (fuel : nat) (f : file) (delim : list byte) (mode : skipmode) (ret : list byte)
  : outcome (file * result (list byte)) :=
  let upto f n := match mode with
                  | Drop => Done (setstart f (rstart f + n), [])
                  | _ => readinto f n
                  end in
  match fuel with
  | O => OutOfFuel
  | S fuel =>
      match ensureread f (length delim) with
      | Done (f, Err Eof) =>
          match upto f (rend f - rstart f)%nat with
          | Done (f, bs) => Done (f, match ret ++ bs with [] => Err Eof | l => Ok l end)
          | Abort => Abort
          | OutOfFuel => OutOfFuel
          end
      | Done (f, Err e) => Done (f, Err e)
      | Done (f, Ok _) =>
          let '(i, found) := delimscan (rbuf f) (rstart f) (S (rend f - rstart f) - length delim) delim in
          if found then
            match mode with
            | Drop => Done (setstart f (i + length delim), Ok ret)
            | Read => match readinto f (i - rstart f) with
                      | Done (f, bs) => Done (setstart f (rstart f + length delim), Ok (ret ++ bs))
                      | Abort => Abort
                      | OutOfFuel => OutOfFuel
                      end
            | Keep => match readinto f (i + length delim - rstart f) with
                      | Done (f, bs) => Done (f, Ok (ret ++ bs))
                      | Abort => Abort
                      | OutOfFuel => OutOfFuel
                      end
            end
          else
            match upto f (i - rstart f)%nat with
            | Done (f, bs) => readdelim_loop fuel f delim mode (ret ++ bs)
            | Abort => Abort
            | OutOfFuel => OutOfFuel
            end
      | Abort => Abort
      | OutOfFuel => OutOfFuel
      end
  end.
(* readdelim, lib/bio/bio.myr:401-460 *)
Definition readdelim (f : file) (delim : list byte) (mode : skipmode) : outcome (file * result (list byte)) :=
  match delim with
  | [] => Done (f, Ok [])
  | _ => readdelim_loop (S (S (avail f))) f delim mode []
  end.
(* readto, readterm and skipto, lib/bio/bio.myr:326-341 *)
Definition readto f delim := readdelim f delim Read.
Definition readterm f delim := readdelim f delim Keep.
Definition skipto f delim :=
  match readdelim f delim Drop with
  | Done (f, Ok _) => Done (f, true)
  | Done (f, Err _) => Done (f, false)
  | Abort => Abort
  | OutOfFuel => OutOfFuel
  end.

(* getle and getbe, lib/bio/geti.myr:24-51, v being a uint64 *)
Fixpoint getle_loop (b : list byte) (s i n : nat) (v : N) : N :=
  match n with
  | O => v
  | S n => getle_loop b (S s) (S i) n (N.land (N.lor v (N.shiftl (nth s b 0) (8 * N.of_nat i))) (N.ones 64))
  end.
Fixpoint getbe_loop (b : list byte) (s n : nat) (v : N) : N :=
  match n with
  | O => v
  | S n => getbe_loop b (S s) n (N.lor (N.land (N.shiftl v 8) (N.ones 64)) (nth s b 0))
  end.
Definition getle (f : file) (n : nat) : outcome (file * result N) :=
  match ensureread f n with
  | Done (f, Err e) => Done (f, Err e)
  | Done (f, Ok _) => Done (setstart f (rstart f + n), Ok (getle_loop (rbuf f) (rstart f) 0 n 0))
  | Abort => Abort
  | OutOfFuel => OutOfFuel
  end.
Definition getbe (f : file) (n : nat) : outcome (file * result N) :=
  match ensureread f n with
  | Done (f, Err e) => Done (f, Err e)
  | Done (f, Ok _) => Done (setstart f (rstart f + n), Ok (getbe_loop (rbuf f) (rstart f) n 0))
  | Abort => Abort
  | OutOfFuel => OutOfFuel
  end.

(* writebuf, lib/bio/bio.myr:534-549 *)
Fixpoint writebuf_loop (fuel : nat) (d : dev) (src : list byte) (count : nat) : outcome (dev * result nat) :=
  match fuel with
  | O => OutOfFuel
  | S fuel =>
      match src with
      | [] => Done (d, Ok count)
      | _ =>
          let '(d, r) := devwrite d src in
          match r with
          | SysOk O => Done (d, Err Eof)
          | SysOk n => writebuf_loop fuel d (skipn n src) (count + n)
          | SysErr e => Done (d, Err (errtype e))
          end
      end
  end.
Definition writebuf (f : file) (src : list byte) : outcome (file * result nat) :=
  match writebuf_loop (S (length src)) (dv f) src 0 with
  | Done (d, r) => Done (setdv f d, r)
  | Abort => Abort
  | OutOfFuel => OutOfFuel
  end.
(* flush, lib/bio/bio.myr:198-210 *)
Definition flush (f : file) : outcome (file * bool) :=
  if wr f then
    match writebuf f (firstn (wend f) (wbuf f)) with
    | Done (f', Ok n) => Done (setw f' (wbuf f') 0, (n =? wend f)%nat)
    | Done (f', Err _) => Done (setw f' (wbuf f') 0, false)
    | Abort => Abort
    | OutOfFuel => OutOfFuel
    end
  else Done (setw f (wbuf f) 0, true).
(* write, lib/bio/bio.myr:117-131 *)
Definition write (f : file) (src : list byte) : outcome (file * result nat) :=
  if negb (wr f) then Abort
  else if (length src <=? length (wbuf f) - wend f)%nat
  then Done (setw f (blit (wbuf f) (wend f) src) (wend f + length src), Ok (length src))
  else match flush f with
       | Done (f, _) => writebuf f src
       | Abort => Abort
       | OutOfFuel => OutOfFuel
       end.
(* ensurewrite, lib/bio/bio.myr:496-507 *)
Definition ensurewrite (f : file) (n : nat) : outcome (file * result nat) :=
  if (n <? length (wbuf f))%nat then
    if (length (wbuf f) - wend f <? n)%nat then
      match writebuf f (firstn (wend f) (wbuf f)) with
      | Done (f, Ok len) => Done (setw f (wbuf f) 0, Ok len)
      | Done (f, Err e) => Done (f, Err e)
      | Abort => Abort
      | OutOfFuel => OutOfFuel
      end
    else Done (f, Ok n)
  else Abort.
(* putb, lib/bio/bio.myr:222-230 *)
Definition putb (f : file) (b : byte) : outcome (file * result nat) :=
  if negb (wr f) then Abort
  else match ensurewrite f 1 with
  | Done (f, Ok _) => Done (setw f (upd (wbuf f) (wend f) b) (S (wend f)), Ok 1%nat)
  | Done (f, Err e) => Done (f, Err e)
  | Abort => Abort
  | OutOfFuel => OutOfFuel
  end.
(* putc, lib/bio/bio.myr:233-247; std.encode is given wbuf[wend:] *)
Definition putc (f : file) (c : N) : outcome (file * result nat) :=
  if negb (wr f) then Abort
  else let sz := charlen c in
  match ensurewrite f sz with
  | Done (f, Ok _) =>
      Done (setw f (firstn (wend f) (wbuf f) ++ snd (encode (skipn (wend f) (wbuf f)) c)) (wend f + sz), Ok sz)
  | Done (f, Err e) => Done (f, Err e)
  | Abort => Abort
  | OutOfFuel => OutOfFuel
  end.
(* putle and putbe, lib/bio/puti.myr:30-68: bits s to s+7 of v *)
Definition byteat (v : N) (s : N) : byte := N.land (N.shiftr v s) 0xff.
Definition putle (f : file) (v : N) (n : nat) : outcome (file * result nat) :=
  match ensurewrite f n with
  | Done (f, Ok _) => write f (firstn n (map (byteat v) [0; 8; 16; 24; 32; 40; 48; 56]))
  | Done (f, Err e) => Done (f, Err e)
  | Abort => Abort
  | OutOfFuel => OutOfFuel
  end.
Definition putbe (f : file) (v : N) (n : nat) : outcome (file * result nat) :=
  match ensurewrite f n with
  | Done (f, Ok _) => write f (skipn (8 - n) (map (byteat v) [56; 48; 40; 32; 24; 16; 8; 0]))
  | Done (f, Err e) => Done (f, Err e)
  | Abort => Abort
  | OutOfFuel => OutOfFuel
  end.
(* seek, lib/bio/bio.myr:212-219 *)
Definition seek (f : file) (off : nat) : outcome (file * result nat) :=
  match flush f with
  | Done (f, _) =>
      let f := setr f (rbuf f) 0 0 in
      let '(d, r) := devseek (dv f) off in
      Done (setdv f d, match r with SysOk o => Ok o | SysErr e => Err (errtype e) end)
  | Abort => Abort
  | OutOfFuel => OutOfFuel
  end.
(* close, lib/bio/bio.myr:85-92: && does not close the device when the flush failed *)
Definition close (f : file) : outcome (dev * bool) :=
  match flush f with
  | Done (f, true) => Done (devclose (dv f))
  | Done (f, false) => Done (dv f, false)
  | Abort => Abort
  | OutOfFuel => OutOfFuel
  end.
