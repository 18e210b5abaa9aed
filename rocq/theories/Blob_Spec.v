(* What the memory image of a constant should be: read the way running code reads it. *)
From Verif Require Import Base Layout_Model Layout_Spec Blob_Model.
Local Open Scope N_scope.

(* the image has these cells at offset o *)
Definition At (img : list cell) (o : N) (cells : list cell) : Prop :=
  exists pre post, img = (pre ++ cells ++ post)%list /\ N.of_nat (length pre) = o.

Definition addr (lbl : string) (off : N) : list cell := map (Caddr lbl off) (seq 0 8).

(* the image holds the value of a constant at offset o: scalars in their bytes, and the parts of
   aggregates at the offsets generated code uses for them; members and elements that the constant
   leaves out are zero *)
Inductive holds (heap : nat -> ty) (img : list cell) : N -> init -> Prop :=
| h_void t o : holds heap img o (Ivoid t)
| h_int t v o : At img o (le (N.to_nat (extent t)) v) -> holds heap img o (Iint t v)
| h_bool t v o : At img o (le 1 v) -> holds heap img o (Ibool t v)
| h_chr t v o : At img o (le 4 v) -> holds heap img o (Ichr t v)
| h_flt32 t v o : At img o (le 4 v) -> holds heap img o (Iflt32 t v)
| h_flt64 t v o : At img o (le 8 v) -> holds heap img o (Iflt64 t v)
| h_str t lbl len o : (len <> 0 -> At img o (addr lbl 0)) -> At img (o + 8) (le 8 len) ->
    holds heap img o (Istr t lbl len)
| h_func t lbl o : At img o (le 8 0) -> At img (o + 8) (addr lbl 0) -> holds heap img o (Ifunc t lbl)
| h_var t lbl o : At img o (le 8 0) -> At img (o + 8) (addr lbl 0) -> holds heap img o (Ivar t lbl)
| h_slice t lbl esz lo hi o : At img o (addr lbl (lo * esz)) -> At img (o + 8) (le 8 (hi - lo)) ->
    holds heap img o (Islice t lbl esz lo hi)
| h_ucon t name arg o k : nth_error (map fst (ucons t)) (N.to_nat k) = Some name -> At img o (le 4 k) ->
    (forall a, arg = Some a -> exists off, step_offset heap t (Spayload name) = Some off /\ holds heap img (o + off) a) ->
    holds heap img o (Iucon t name arg)
| h_struct t args o :
    (forall x a, In (x, a) args -> exists off, step_offset heap t (Sfield x) = Some off /\ holds heap img (o + off) a) ->
    (forall x u, In (x, u) (members t) -> ~ In x (map fst args) ->
       exists off, step_offset heap t (Sfield x) = Some off /\ At img (o + off) (zeros (extent u))) ->
    holds heap img o (Istruct t args)
| h_tup t args o :
    (forall i a, nth_error args i = Some a -> exists off, step_offset heap t (Selt i) = Some off /\ holds heap img (o + off) a) ->
    holds heap img o (Itup t args)
| h_arr t args o :
    (forall i a, In (i, a) args -> exists off, step_offset heap t (Sidx i) = Some off /\ holds heap img (o + off) a) ->
    (forall n e i, tybase t = Tarray (Some n) e -> i < n -> ~ In i (map fst args) ->
       exists off, step_offset heap t (Sidx i) = Some off /\ At img (o + off) (zeros (extent e))) ->
    holds heap img o (Iarr t args).

(* element indices as the compiler orders them: increasing *)
Definition increasing (l : list N) : Prop := Sorted N.lt l.

(* constants the type checker lets through *)
Inductive typed : init -> Prop :=
| t_void t : extent t = 0 -> typed (Ivoid t)
| t_int t p v : tybase t = Tprim p -> p <> Pvoid -> typed (Iint t v)
| t_bool t v : tybase t = Tprim Pbool -> typed (Ibool t v)
| t_chr t v : tybase t = Tprim Pchar -> typed (Ichr t v)
| t_flt32 t v : tybase t = Tprim Pflt32 -> typed (Iflt32 t v)
| t_flt64 t v : tybase t = Tprim Pflt64 -> typed (Iflt64 t v)
| t_str t lbl len k : tybase t = Tslice k -> len < 2 ^ 64 -> typed (Istr t lbl len)
| t_func t lbl : tybase t = Tfunc -> typed (Ifunc t lbl)
| t_var t lbl : tybase t = Tfunc -> typed (Ivar t lbl)
| t_slice t lbl esz lo hi k : tybase t = Tslice k -> lo <= hi -> hi < 2 ^ 64 -> lo * esz < 2 ^ 64 ->
    typed (Islice t lbl esz lo hi)
| t_ucon0 t cs name : tybase t = Tunion cs -> In (name, None) cs -> typed (Iucon t name None)
| t_ucon1 t cs name a : tybase t = Tunion cs -> In (name, Some (exprtype a)) cs -> typed a -> typed (Iucon t name (Some a))
| t_struct t ms args : tybase t = Tstruct ms -> NoDup (map fst args) ->
    (forall x a, In (x, a) args -> In (x, exprtype a) ms /\ typed a) -> typed (Istruct t args)
| t_tup t args : tybase t = Ttuple (map exprtype args) -> (forall a, In a args -> typed a) -> typed (Itup t args)
| t_arr t args n e : tybase t = Tarray (Some n) e ->
    increasing (map fst args) -> n = fold_left (fun _ i => i + 1) (map fst args) 0 -> n < 2 ^ 64 ->
    (forall i a, In (i, a) args -> exprtype a = e /\ typed a) -> typed (Iarr t args).

(* no array constant skips exactly one element: no index is two more than the one before it,
   and the first is not 1 *)
Fixpoint no_single_gap (last : N) (l : list N) : Prop :=
  match l with
  | [] => True
  | i :: l => i <> last + 1 /\ no_single_gap (i + 1) l
  end.
Inductive gapfree : init -> Prop :=
| g_ucon0 t name : gapfree (Iucon t name None)
| g_ucon1 t name a : gapfree a -> gapfree (Iucon t name (Some a))
| g_struct t args : (forall x a, In (x, a) args -> gapfree a) -> gapfree (Istruct t args)
| g_tup t args : (forall a, In a args -> gapfree a) -> gapfree (Itup t args)
| g_arr t args : no_single_gap 0 (map fst args) -> (forall i a, In (i, a) args -> gapfree a) -> gapfree (Iarr t args)
| g_scalar i : match i with Iucon _ _ _ | Istruct _ _ | Itup _ _ | Iarr _ _ => False | _ => True end -> gapfree i.
