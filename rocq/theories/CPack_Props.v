(* C06: serialisation round trips of util/pack.c. *)
From Verif Require Import Base Word CPack_Model CPack_Proofs.
Open Scope Z_scope.

(* Reading back, kind by kind, what was written for any sequence of in-range values yields the same
   values and leaves exactly the bytes that followed. *)
Theorem C06_round_trip : forall (vs : list value) (rest : list Z),
  Forall (fun v => match v with
    | VByte z | VBool z => -128 <= z < 128
    | VInt z => - 2 ^ 31 <= z < 2 ^ 31
    | VStr None => True
    | VStr (Some b) => ~ In 0 b /\ Z.of_nat (length b) < 2 ^ 31
    | VLenStr b => Z.of_nat (length b) < 2 ^ 31
    | VFlt bits => 0 <= bits < 2 ^ 64
    end) vs ->
  rds (map kind_of vs) (flat_map wr vs ++ rest) = Some (vs, rest).
Proof. exact rds_wrs. Qed.
Print Assumptions C06_round_trip.

(* an int outside 32 bits comes back reduced modulo 2^32 to the signed range *)
Theorem C06_int_truncation : forall v rest, rdint (wrint v ++ rest) = Some (swrap 32 v, rest).
Proof.
  intros v rest. unfold rdint, wrint. rewrite <- (be32_len v), rdbuf_app, host32_be32. reflexivity.
Qed.
Print Assumptions C06_int_truncation.

(* what is written is bytes *)
Theorem C06_writes_bytes : forall v,
  (match v with VStr (Some b) | VLenStr b => Forall (fun c => 0 <= c < 256) b | _ => True end) ->
  Forall (fun c => 0 <= c < 256) (wr v).
Proof. exact wr_bytes. Qed.
Print Assumptions C06_writes_bytes.

Example C06_example :
  let vs := [VInt (-2147483648); VStr None; VStr (Some [104;105]); VLenStr [0;255;7]; VFlt 0xBFF0000000000001; VBool 1; VByte (-1); VInt 2147483647] in
  flat_map wr vs = [128;0;0;0; 255;255;255;255; 0;0;0;2;104;105; 0;0;0;3;0;255;7; 191;240;0;0;0;0;0;1; 1; 255; 127;255;255;255] /\
  rds (map kind_of vs) (flat_map wr vs ++ [9]) = Some (vs, [9]).
Proof. vm_compute. auto. Qed.
