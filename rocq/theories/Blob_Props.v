From Verif Require Import Base Layout_Model Layout_Spec Layout_Proofs Blob_Model Blob_Spec Blob_Proofs.
Local Open Scope N_scope.

(* C55.  The data emitted for a constant initialiser has the size of its type, and reading it at
   the offsets the generated code uses gives back the constant's parts; what the constant leaves
   out is zero.  Partial: constants containing an array that skips exactly one element are
   excluded, see below. *)
Theorem C55_image_partial : forall heap i, typed i -> gapfree i -> wf (exprtype i) -> extent (exprtype i) < 2 ^ 64 ->
  N.of_nat (length (image i)) = tysize (exprtype i) /\ holds heap (image i) 0 i.
Proof.
  intros heap i T G W B. destruct (blob_ok heap i T G W B) as [[_ L] H].
  rewrite tysize_extent by exact B. split; [exact L|]. apply H. apply At_self.
Qed.
Print Assumptions C55_image_partial.

(* An array constant that skips exactly one element is emitted without room for it: the image is
   one element short and the elements after the gap are one place early. *)
Theorem C55_gap_refuted : exists heap i, typed i /\ wf (exprtype i) /\ extent (exprtype i) < 2 ^ 64 /\
  N.of_nat (length (image i)) < tysize (exprtype i) /\ ~ holds heap (image i) 0 i.
Proof.
  set (byte := Tprim Pbyte).
  exists (fun _ => Tcode), (Iarr (Tarray (Some 3) byte) [(0, Iint byte 1); (2, Iint byte 3)]).
  split; [|split; [|split; [|split]]].
  - eapply t_arr; [reflexivity| |reflexivity|reflexivity|].
    + repeat constructor.
    + intros i a [E|[E|[]]]; injection E as <- <-; (split; [reflexivity|]); (eapply t_int; [reflexivity|discriminate]).
  - exact I.
  - reflexivity.
  - vm_compute. reflexivity.
  - intros H. inversion H as [| | | | | | | | | | | | |? ? ? HA _]; subst.
    destruct (HA 2 (Iint byte 3)) as (off & SO & Hh); [right; left; reflexivity|].
    vm_compute in SO. injection SO as <-. inversion Hh as [|? ? ? A| | | | | | | | | | | |]; subst.
    destruct A as (pre & post & E & L). apply (f_equal (@length cell)) in E. rewrite !app_length in E.
    match type of E with ?x = _ => change x with 2%nat in E end.
    change (length (le (N.to_nat (extent byte)) 3)) with 1%nat in E. lia.
Qed.
Print Assumptions C55_gap_refuted.

(* a struct holding a union, a tuple, a string and an array with a larger gap *)
Definition demo_u : ty := Tunion [("Nil"%string, None); ("Num"%string, Some (Tprim Pint64))].
Definition demo_t : ty := Tname (Tstruct [("b"%string, Tprim Pbyte); ("u"%string, demo_u); ("gone"%string, Tprim Pint16);
  ("s"%string, Tslice 0); ("p"%string, Ttuple [Tprim Pbyte; Tprim Pint32]); ("a"%string, Tarray (Some 4) (Tprim Pint16))]).
Definition demo_i : init := Istruct demo_t
  [("u"%string, Iucon demo_u "Num" (Some (Iint (Tprim Pint64) 258))); ("b"%string, Iint (Tprim Pbyte) 7);
   ("s"%string, Istr (Tslice 0) "str" 5);
   ("p"%string, Itup (Ttuple [Tprim Pbyte; Tprim Pint32]) [Iint (Tprim Pbyte) 1; Iint (Tprim Pint32) 2]);
   ("a"%string, Iarr (Tarray (Some 4) (Tprim Pint16)) [(0, Iint (Tprim Pint16) 9); (3, Iint (Tprim Pint16) 8)])].
Example C55_example : typed demo_i /\ gapfree demo_i /\ wf (exprtype demo_i) /\ extent (exprtype demo_i) < 2 ^ 64 /\
  length (image demo_i) = 64%nat /\ nth_error (image demo_i) 16 = Some (Cbyte 2) /\ nth_error (image demo_i) 17 = Some (Cbyte 1).
Proof.
  assert (forall p v, p <> Pvoid -> typed (Iint (Tprim p) v)) as TI by (intros; eapply t_int; [reflexivity|auto]).
  split.
  { eapply t_struct; [reflexivity| |].
    - repeat constructor; cbn; intuition discriminate.
    - intros x a H. cbn [In] in H. repeat destruct H as [H|H]; try (injection H as <- <-); [..|destruct H];
        (split; [cbn; tauto|]); try (apply TI; discriminate).
      + eapply t_ucon1; [reflexivity|cbn; tauto|apply TI; discriminate].
      + eapply t_str; reflexivity.
      + eapply t_tup; [reflexivity|]. intros a [<-|[<-|[]]]; apply TI; discriminate.
      + eapply t_arr; [reflexivity| |reflexivity|reflexivity|].
        * repeat constructor.
        * intros i a [E|[E|[]]]; injection E as <- <-; (split; [reflexivity|apply TI; discriminate]). }
  split.
  { apply g_struct. intros x a H. cbn [In] in H. repeat destruct H as [H|H]; try (injection H as <- <-); [..|destruct H];
      try (apply g_scalar; exact I).
    - apply g_ucon1. apply g_scalar; exact I.
    - apply g_tup. intros a [<-|[<-|[]]]; apply g_scalar; exact I.
    - apply g_arr; [cbn; repeat split; discriminate|]. intros i a [E|[E|[]]]; injection E as <- <-; apply g_scalar; exact I. }
  split. { cbn. repeat split; auto; repeat constructor; cbn; intuition discriminate. }
  split; [reflexivity|]. split; [reflexivity|]. split; reflexivity.
Qed.
