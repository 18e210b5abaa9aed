(* Model of util/pack.c.  A stream is the list of its bytes (Z in 0..255); a writer returns the bytes it
   appends, a reader returns the value and the remaining stream, None is die("Unexpected EOF")
   (or a failing allocation of an absurd size). long and vlong are 64-bit.
   Simplification: wrbuf/rdbuf (util/pack.c:66-96) transfer the whole buffer at once; fread/fwrite return
   short counts only at end of file or on error, both of which die. *)
From Verif Require Import Base Word.
Open Scope Z_scope.

Definition stream := list Z.

(* be64, util/pack.c:17-28 *)
Definition be64 (v : Z) : list Z :=
  map (fun s => Z.land (Z.shiftr v s) 255) [56; 48; 40; 32; 24; 16; 8; 0].
(* host64, util/pack.c:30-44.  buf[0] << 56 may leave the range of vlong (undefined in ISO C); modelled
   as the wrap-around every compiler implements. *)
Definition host64 (b : list Z) : Z :=
  fold_left (fun v p => swrap 64 (Z.lor v (swrap 64 (Z.shiftl (fst p) (snd p)))))
            (combine b [56; 48; 40; 32; 24; 16; 8; 0]) 0.

(* be32, util/pack.c:46-53 *)
Definition be32 (v : Z) : list Z :=
  map (fun s => Z.land (Z.shiftr v s) 255) [24; 16; 8; 0].
(* host32, util/pack.c:55-64: the accumulator is int32_t, the shifted bytes are long *)
Definition host32 (b : list Z) : Z :=
  fold_left (fun v p => swrap 32 (Z.lor v (Z.shiftl (fst p) (snd p))))
            (combine b [24; 16; 8; 0]) 0.

(* rdbuf, util/pack.c:83-96 *)
Definition rdbuf (n : nat) (s : stream) : option (list Z * stream) :=
  if (length s <? n)%nat then None else Some (firstn n s, skipn n s).

(* wrbyte, util/pack.c:98-103: char to unsigned char; rdbyte, :105-113: unsigned char to (signed) char *)
Definition wrbyte (v : Z) : stream := [uwrap 8 v].
Definition rdbyte (s : stream) : option (Z * stream) :=
  match s with [] => None | c :: s => Some (swrap 8 c, s) end.

(* wrint, util/pack.c:115-121; rdint, :123-129 *)
Definition wrint (v : Z) : stream := be32 v.
Definition rdint (s : stream) : option (Z * stream) :=
  match rdbuf 4 s with Some (b, s) => Some (host32 b, s) | None => None end.

(* a C string in memory: bytes up to the first NUL; [strlen] *)
Fixpoint cstr (b : list Z) : list Z :=
  match b with [] => [] | c :: b => if c =? 0 then [] else c :: cstr b end.

(* wrstr, util/pack.c:131-143; None is NULL *)
Definition wrstr (v : option (list Z)) : stream :=
  match v with
  | None => wrint (-1)
  | Some b => wrint (Z.of_nat (length (cstr b))) ++ cstr b
  end.
(* rdstr, util/pack.c:145-160; a negative length other than -1 makes xalloc/fread fail *)
Definition rdstr (s : stream) : option (option (list Z) * stream) :=
  match rdint s with
  | None => None
  | Some (len, s) =>
      if len =? -1 then Some (None, s)
      else if len <? 0 then None
      else match rdbuf (Z.to_nat len) s with Some (b, s) => Some (Some (cstr b), s) | None => None end
  end.

(* wrlenstr, util/pack.c:162-167; rdlenstr, :169-176 *)
Definition wrlenstr (b : list Z) : stream := wrint (Z.of_nat (length b)) ++ b.
Definition rdlenstr (s : stream) : option (list Z * stream) :=
  match rdint s with
  | None => None
  | Some (len, s) => if len <? 0 then None else rdbuf (Z.to_nat len) s
  end.

(* wrflt, util/pack.c:178-191; rdflt, :193-205: a double is represented by its 64-bit image *)
Definition wrflt (bits : Z) : stream := be64 (swrap 64 bits).
Definition rdflt (s : stream) : option (Z * stream) :=
  match rdbuf 8 s with Some (b, s) => Some (uwrap 64 (host64 b), s) | None => None end.

(* wrbool, util/pack.c:222-226; rdbool, :228-232 *)
Definition wrbool (v : Z) : stream := wrbyte (swrap 8 v).
Definition rdbool (s : stream) : option (Z * stream) := rdbyte s.

(* a value of one of the serialised kinds *)
Inductive kind := KByte | KBool | KInt | KStr | KLenStr | KFlt.
Inductive value := VByte (z : Z) | VBool (z : Z) | VInt (z : Z) | VStr (s : option (list Z)) | VLenStr (s : list Z) | VFlt (bits : Z).
Definition kind_of (v : value) : kind :=
  match v with VByte _ => KByte | VBool _ => KBool | VInt _ => KInt | VStr _ => KStr | VLenStr _ => KLenStr | VFlt _ => KFlt end.
Definition wr (v : value) : stream :=
  match v with
  | VByte z => wrbyte z | VBool z => wrbool z | VInt z => wrint z
  | VStr s => wrstr s | VLenStr s => wrlenstr s | VFlt b => wrflt b
  end.
Definition omap {A} (f : A -> value) (x : option (A * stream)) : option (value * stream) :=
  match x with Some (a, s) => Some (f a, s) | None => None end.
Definition rd (k : kind) (s : stream) : option (value * stream) :=
  match k with
  | KByte => omap VByte (rdbyte s) | KBool => omap VBool (rdbool s) | KInt => omap VInt (rdint s)
  | KStr => omap VStr (rdstr s) | KLenStr => omap VLenStr (rdlenstr s) | KFlt => omap VFlt (rdflt s)
  end.
Fixpoint rds (ks : list kind) (s : stream) : option (list value * stream) :=
  match ks with
  | [] => Some ([], s)
  | k :: ks => match rd k s with
               | Some (v, s) => match rds ks s with Some (vs, s) => Some (v :: vs, s) | None => None end
               | None => None
               end
  end.
