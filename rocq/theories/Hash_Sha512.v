(* The step function of SHA-512 is the compression function of FIPS 180-4 (for Hash_Props). *)
From Verif Require Import Base ListX Hash_Spec Hash_Model Hash_Steps Hash_Sha.
From Coq Require Import NArith.
Open Scope N_scope.
Lemma step_sha512_ok : forall st blk, Forall is_byte blk -> length blk = 128%nat -> step_sha512 st blk = compress512 st blk.
Proof.
  intros st blk F L. unfold compress512, sha2_compress. change (N.to_nat (64 / 8)) with 8%nat.
  rewrite (words16 8 num_be unpack_sha512 blk unpack_be8 F) by lia.
  cbn [seq map Nat.mul Nat.add]. destruct st as [[[[[[[a b] c] d] e] f] g] h]. unfold step_sha512. do 16 take1.
  abstract_words unpack_sha512. change (80 - 16)%nat with 64%nat.
  do 64 sched_step s0_64_ok s1_64_ok. rewrite K512_eq. cbn [sha2_schedule combine].
  do 80 round_step S0_64_ok S1_64_ok. reflexivity.
Qed.
