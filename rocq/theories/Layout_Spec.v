(* What a layout should be, with unbounded sizes and without reference to the code's loops. *)
From Verif Require Import Base Layout_Model.
Local Open Scope N_scope.

(* the least multiple of a that is not below n *)
Definition roundup (n a : N) : N := (n + a - 1) / a * a.

Definition maxlist (l : list N) : N := fold_right N.max 1 l.

(* The alignment a value needs: scalars need their size, addresses and pairs of addresses 8,
   aggregates the largest alignment among their parts, unions at least that of the 4-byte tag. *)
Definition scalar_alignment (p : prim) : N :=
  match p with
  | Pvoid | Pbool | Pint8 | Pbyte | Puint8 => 1
  | Pint16 | Puint16 => 2
  | Pint | Pint32 | Puint | Puint32 | Pchar | Pflt32 => 4
  | Pint64 | Puint64 | Pflt64 | Pvalist => 8
  end.
Definition scalar_extent (p : prim) : N := match p with Pvoid => 0 | p => scalar_alignment p end.

Fixpoint alignment (t : ty) : N :=
  match t with
  | Tprim p => scalar_alignment p
  | Tptr _ | Tslice _ | Tcode | Tfunc => 8
  | Tname d => alignment d
  | Tarray _ e => alignment e
  | Ttuple ts => maxlist (map alignment ts)
  | Tstruct ms => maxlist (map (fun m => alignment (snd m)) ms)
  | Tunion cs => N.max 4 (maxlist (map (fun c => match snd c with Some e => alignment e | None => 1 end) cs))
  end.

(* The number of bytes a value occupies.  A struct or tuple places each part at the first
   suitably aligned byte after the previous part; a union holds the tag in the first 4 bytes and
   the payload at the first suitably aligned byte after it; every aggregate is padded at the end
   to a multiple of its alignment. *)
Fixpoint extent (t : ty) : N :=
  match t with
  | Tprim p => scalar_extent p
  | Tptr _ | Tcode => 8
  | Tslice _ | Tfunc => 16
  | Tname d => extent d
  | Tarray None _ => 0
  | Tarray (Some n) e => n * extent e
  | Ttuple ts => roundup (fold_left (fun o x => roundup o (alignment x) + extent x) ts 0) (alignment t)
  | Tstruct ms =>
      roundup (fold_left (fun o m => roundup o (alignment (snd m)) + extent (snd m)) ms 0) (alignment t)
  | Tunion cs =>
      roundup (fold_left (fun m c => N.max m match snd c with
                                             | Some e => roundup 4 (alignment e) + extent e
                                             | None => 0 end) cs 4) (alignment t)
  end.

(* The parts of a value that a program can name. *)
Inductive step :=
| Sfield (name : string)      (* v.name *)
| Selt (i : nat)              (* the i-th element of a tuple *)
| Sidx (i : N)                (* v[i] *)
| Spayload (cons : string).   (* the payload of a union value built with this constructor *)

Inductive part : ty -> step -> ty -> Prop :=
| part_name d s u : part d s u -> part (Tname d) s u
| part_field ms x u : In (x, u) ms -> part (Tstruct ms) (Sfield x) u
| part_elt ts i u : nth_error ts i = Some u -> part (Ttuple ts) (Selt i) u
| part_idx n e i : i < n -> part (Tarray (Some n) e) (Sidx i) e
| part_payload cs c e : In (c, Some e) cs -> part (Tunion cs) (Spayload c) e.

(* a part of a part of ... *)
Inductive parts : ty -> list step -> ty -> Prop :=
| parts_nil t : parts t [] t
| parts_cons t s u p v : part t s u -> parts u p v -> parts t (s :: p) v.

(* two paths that lead to different parts of a struct, tuple or array at the place where they
   first differ *)
Inductive apart : list step -> list step -> Prop :=
| apart_field x y p q : x <> y -> apart (Sfield x :: p) (Sfield y :: q)
| apart_elt i j p q : i <> j -> apart (Selt i :: p) (Selt j :: q)
| apart_idx i j p q : i <> j -> apart (Sidx i :: p) (Sidx j :: q)
| apart_cons s p q : apart p q -> apart (s :: p) (s :: q).

(* the names in a struct or union are distinct, at every level *)
Fixpoint wf (t : ty) : Prop :=
  match t with
  | Tprim _ | Tptr _ | Tslice _ | Tcode | Tfunc => True
  | Tname d => wf d
  | Tarray _ e => wf e
  | Ttuple ts => fold_right and True (map wf ts)
  | Tstruct ms => NoDup (map fst ms) /\ fold_right and True (map (fun m => wf (snd m)) ms)
  | Tunion cs => NoDup (map fst cs) /\
                 fold_right and True (map (fun c => match snd c with Some e => wf e | None => True end) cs)
  end.

(* where the generated code goes to find a part: member offsets, the index multiplication, the
   payload offset *)
Definition step_offset (heap : nat -> ty) (t : ty) (s : step) : option N :=
  match s, tybase t with
  | Sfield x, _ => tyoffset heap t (Mname x)
  | Selt i, _ => tyoffset heap t (Mlit i)
  | Sidx i, Tarray _ e => Some (idxoff e i)
  | Spayload c, Tunion cs => match finducon cs c with Some (Some e) => Some (ugetoff e) | _ => None end
  | _, _ => None
  end.
(* the offset of a nested part: the sum of the offsets along the way, in machine arithmetic *)
Inductive path_offset (heap : nat -> ty) : ty -> list step -> ty -> N -> Prop :=
| po_nil t : path_offset heap t [] t 0
| po_cons t s u p v o o' : part t s u -> step_offset heap t s = Some o -> path_offset heap u p v o' ->
    path_offset heap t (s :: p) v (add64 o o').
