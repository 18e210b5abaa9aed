(* What argument passing and stack frames should guarantee. *)
From Verif Require Import Base Layout_Model Layout_Spec Call_Model.
Local Open Scope N_scope.

(* an upper bound for the stack needed by these arguments, used to exclude address wrap-around *)
Fixpoint room (ts : list ty) : N := match ts with [] => 0 | t :: ts => extent t + 16 + room ts end.

(* two pieces share storage *)
Definition clash (p q : place) : Prop :=
  match p, q with
  | Pint_reg a, Pint_reg b => a = b
  | Pflt_reg a, Pflt_reg b => a = b
  | Pstack a n, Pstack b m => exists x, a <= x < a + n /\ b <= x < b + m
  | _, _ => False
  end.

(* a piece names an existing register (6 for integers, 8 for floats) or lies in the area of z
   bytes reserved by the caller *)
Definition valid (z : N) (p : place) : Prop :=
  match p with
  | Pint_reg k => (k < 6)%nat
  | Pflt_reg k => (k < 8)%nat
  | Pstack o n => o + n <= z
  end.

(* the pieces of one argument have room for the whole value, aligned as its type requires *)
Definition holds (t : ty) (ps : list place) : Prop :=
  match ps with
  | [] => extent t = 0
  | [Pstack o n] => n = extent t /\ N.divide (alignment t) o
  | [Pint_reg _] | [Pflt_reg _] => extent t <= 8
  | [Pint_reg _; Pint_reg _] | [Pint_reg _; Pflt_reg _] | [Pflt_reg _; Pint_reg _] | [Pflt_reg _; Pflt_reg _] =>
      8 < extent t <= 16
  | _ => False
  end.

(* no union with a payload inside, looking through names, arrays, tuples and structs *)
Fixpoint plain (t : ty) : Prop :=
  match t with
  | Tname d => plain d
  | Tarray _ e => plain e
  | Ttuple ts => fold_right and True (map plain ts)
  | Tstruct ms => fold_right and True (map (fun m => plain (snd m)) ms)
  | Tunion cs => isenum cs = true
  | _ => True
  end.

(* an aggregate whose 8 bytes or fewer hold only floats travels in one float register *)
Definition onefloat (t : ty) : Prop := classify t = Some ArgAggrF.

(* a slot of n bytes, o bytes below the frame pointer fp *)
Definition slot_clash (fp : Z) (o n o' n' : N) : Prop :=
  exists x, (fp - Z.of_N o <= x < fp - Z.of_N o + Z.of_N n)%Z /\ (fp - Z.of_N o' <= x < fp - Z.of_N o' + Z.of_N n')%Z.
