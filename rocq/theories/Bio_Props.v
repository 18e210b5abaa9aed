(* C79 to C82: buffered files.  A device event Upto k transfers at most k bytes, Fault e fails with errno e. *)
From Verif Require Import Base ListX Utf_Model Utf_Spec Utf_Proofs Bio_Model Bio_Spec Bio_Calls Bio_Proofs Bio_Read Bio_Reads Bio_Write Bio_Seek.
From Coq Require Import NArith Lia List.
Import ListNotations.
Open Scope nat_scope.

(* a device that delivers something at every call, however little *)
Definition faultless (evs : list event) : Prop := Forall (fun ev => exists k, ev = Upto (S k)) evs.

(* C79, C80: every sequence of reading calls answers as on the plain list of bytes, whatever the device delivers at a time *)
Theorem C79_reads (content : list N) (at_ : nat) (evs : list event) (w : bool) (os : list rop) (ans : list answer) (left : list N) :
  Forall (fun b => (b < 256)%N) content -> faultless evs -> Forall shortdelim os ->
  readsall (skipn at_ content) os ans left ->
  exists f, calls (mk true w (mkdev content at_ evs)) os = Done (f, ans).
Proof.
  intros B F S H. destruct (calls_reads os (mk true w (mkdev content at_ evs)) _ ans left (mk_reader w content at_ evs F B) S H) as (f & E & _). eauto.
Qed.
(* "ab\r\ncé;;d" delivered one byte at a time *)
Definition sample : list N := [97; 98; 13; 10; 99; 0xc3; 0xa9; 59; 59; 100]%N.
Definition sampleops : list rop := [OPeekb; OReadln; OGetb; OPeekc; OGetc; OReadto [59; 59]%N; OReadln; OReadln].
Definition sampleans : list answer := [AByte 97; ABytes [97; 98]; AByte 99; AChar 0xe9; AChar 0xe9; ABytes []; ABytes [100]; AEof]%N.
Example C79_met : Forall (fun b => (b < 256)%N) sample /\ faultless [Upto 1; Upto 1; Upto 2; Upto 1] /\ Forall shortdelim sampleops /\
  readsall (skipn 0 sample) sampleops sampleans [].
Proof.
  split; [repeat constructor; reflexivity|]. split; [repeat constructor; eexists; reflexivity|]. split.
  { repeat constructor. unfold shortdelim. pose proof Bufsz_big. cbn. lia. }
  assert (PL : forall l, forallb (fun c => negb ((c =? 13)%N || (c =? 10)%N)) l = true -> plain l).
  { intros l H. unfold plain. apply Forall_forall. intros c I [-> | ->]; rewrite forallb_forall in H; specialize (H _ I); discriminate. }
  unfold sampleops, sampleans, sample. cbn [skipn].
  eapply RA_cons; [apply R_peekb|]. eapply RA_cons; [apply (R_readln_crlf [97; 98]%N); apply PL; reflexivity|].
  eapply RA_cons; [apply R_getb|]. eapply RA_cons; [apply (R_peekc 0xe9%N); reflexivity|]. eapply RA_cons; [apply (R_getc 0xe9%N); reflexivity|].
  eapply RA_cons; [apply (R_readto [59; 59]%N []); [intros i X; cbn in X; lia|discriminate]|].
  eapply RA_cons; [apply (R_readln_last [100]%N); [apply PL; reflexivity|discriminate]|].
  eapply RA_cons; [apply R_readln_eof|]. apply RA_nil.
Qed.

(* C79: whatever faults the device has, getb, peekb and read neither lose nor repeat a byte, and what they have not
   handed out is still there once the faults are over. *)
Theorem C79_no_byte_lost (content : list N) (at_ : nat) (evs : list event) (w : bool) (os : list rop) :
  Forall (fun b => (b < 256)%N) content -> Forall bytewise os ->
  exists f ans left, calls (mk true w (mkdev content at_ evs)) os = Done (f, ans) /\ length ans = length os /\
    skipn at_ content = handedall os ans ++ left /\
    (faultless (events (dv f)) -> lasterr f = 0%N -> left <> [] -> exists f', call f (ORead (length left)) = Done (f', ABytes left)).
Proof.
  intros B BW. destruct (calls_bytewise os (mk true w (mkdev content at_ evs))) as (f & ans & E & L & A); auto.
  { unfold wf, mk. cbn. lia. }
  exists f, ans, (stream f). split; [exact E|]. split; [exact L|]. destruct A as (A1 & A2 & A3 & A4 & A5 & A6 & A7 & A8).
  unfold stream at 1, held, rest, mk in A2. cbn in A2. rewrite slice_empty in A2. cbn in A2. split; [exact A2|]. intros Q LE NE.
  assert (RD : reader f (stream f)).
  { unfold reader, calm. split; [exact A1|]. split; [exact A3|]. split; [rewrite A7; cbn; apply repeat_length|]. split; [split; [exact LE|exact Q]|].
    split; [reflexivity|]. rewrite <- (firstn_skipn at_ content), A2 in B. apply Forall_app in B. destruct B as [_ B]. apply Forall_app in B. apply B. }
  destruct (call_reads f (stream f) (ORead (length (stream f))) (ABytes (firstn (length (stream f)) (stream f))) (skipn (length (stream f)) (stream f)) RD I) as (f' & EC & _).
  { apply R_read; [destruct (stream f); [congruence|discriminate]|exact NE]. }
  rewrite firstn_all in EC. eauto.
Qed.
Example C79_no_byte_lost_met : exists f, calls (mk true false (mkdev [1; 2; 3]%N 0 [Upto 1; Fault 5; Fault 4; Upto 1])) [OGetb; OGetb; OPeekb; ORead 1] =
  Done (f, [AByte 1; AFail; AFail; ABytes [2]]%N).
Proof. eexists. vm_compute. reflexivity. Qed.

(* C79 refuted: "Eof means the end of the file".  A fault between the bytes of a character is answered as Eof. *)
Theorem C79_eof_refuted : exists (content : list N) (evs : list event) f,
  (exists c, (c < 0x200000)%N /\ content = utf8 c) /\
  calls (mk true false (mkdev content 0 evs)) [OGetc; OGetc; OGetc] = Done (f, [AEof; AFail; AChar 0x20ac])%N.
Proof. exists (utf8 0x20ac), [Upto 1; Upto 1; Fault 5]. eexists. split; [exists 0x20ac%N; split; reflexivity|]. vm_compute. reflexivity. Qed.
(* C79 refuted: "a fault is reported by some call".  read drops the error of the fill it makes first. *)
Theorem C79_fault_unreported_refuted : exists (content : list N) (evs : list event) f,
  In (Fault 5) evs /\ calls (mk true false (mkdev content 0 evs)) [ORead 3; ORead 1] = Done (f, [ABytes content; AEof]) /\ events (dv f) = [].
Proof. exists [1; 2; 3]%N, [Fault 5]. eexists. split; [left; reflexivity|]. split; vm_compute; reflexivity. Qed.
(* C79 refuted: "a call asks the device for more only when it needs more".  With three bytes held, a call for four
   asks until four more have come: here it gets the one it needs and asks again (a pipe would block). *)
Theorem C79_waits_refuted : exists (content : list N) f,
  calls (mk true false (mkdev content 0 [Upto 3; Upto 1; Fault 11])) [OPeekb; OGetle 4] = Done (f, [AByte 1; AInt 0x04030201])%N /\
  length content = 4 /\ events (dv f) = [].
Proof. exists [1; 2; 3; 4]%N. eexists. split; [vm_compute; reflexivity|]. split; reflexivity. Qed.

(* C80 refuted: "a failed readln or readto loses nothing".  What was consumed before the fault is gone. *)
Theorem C80_fault_loses_line_refuted : exists (content : list N) (evs : list event) f,
  readsall content [OReadln] [ABytes [97; 98]]%N [] /\
  calls (mk true false (mkdev content 0 evs)) [OReadln; OReadln] = Done (f, [AFail; ABytes [98]])%N.
Proof.
  exists [97; 98; 10]%N, [Upto 1; Fault 5]. eexists. split; [|vm_compute; reflexivity].
  eapply RA_cons; [apply (R_readln_lf [97; 98]%N)|apply RA_nil]. repeat constructor; intros [X|X]; discriminate X.
Qed.
Theorem C80_fault_loses_delim_refuted : exists (content : list N) (evs : list event) f f2,
  calls (mk true false (mkdev content 0 evs)) [OReadto [59]%N; OReadto [59]%N] = Done (f, [AFail; ABytes [98]])%N /\
  calls (mk true false (mkdev content 0 [])) [OReadto [59]%N] = Done (f2, [ABytes [97; 98]])%N.
Proof. exists [97; 98; 59]%N, [Upto 1; Fault 5]. eexists _, _. split; vm_compute; reflexivity. Qed.
(* C80 refuted: "a line ended by \r leaves what follows".  Behind "\r", the bytes c0 8a decode as '\n' and one is dropped. *)
Theorem C80_overlong_newline_refuted : exists (content : list N) f,
  content = [97; 13; 0xc0; 0x8a; 98]%N /\
  calls (mk true false (mkdev content 0 [])) [OReadln; OGetb] = Done (f, [ABytes [97]; AByte 0x8a])%N.
Proof. eexists _, _. split; [reflexivity|]. vm_compute. reflexivity. Qed.
(* C80 refuted: a delimiter as long as the buffer ends the program, on any device and content. *)
Theorem C80_long_delimiter_refuted (d : list N) (dev : dev) (w : bool) : Bufsz <= length d ->
  calls (mk true w dev) [OReadto d] = Abort /\ calls (mk true w dev) [OSkipto d] = Abort.
Proof.
  intros L. pose proof Bufsz_big. assert (ND : d <> []) by (destruct d; [cbn in L; lia|discriminate]).
  assert (E : ensureread (mk true w dev) (length d) = Abort).
  { unfold ensureread, mk. cbn [rbuf]. rewrite repeat_length. replace (length d <? Bufsz) with false by (symmetry; apply Nat.ltb_ge; lia). reflexivity. }
  cbn [calls call]. unfold readto, skipto. rewrite !readdelim_ne by exact ND. cbn [readdelim_loop]. rewrite E. auto.
Qed.
Example C80_long_delimiter_met : Bufsz <= length (repeat 0%N Bufsz).
Proof. rewrite repeat_length. lia. Qed.

(* C81: on a faultless device every sequence of writing calls succeeds, and after close the file holds their bytes in
   order from where it stood, everything else unchanged. *)
Theorem C81_writes (content : list N) (at_ : nat) (evs : list event) (r : bool) (os : list wop) :
  faultless evs -> Forall wop_ok os ->
  exists f d, puts (mk r true (mkdev content at_ evs)) os = Done (f, map (fun _ => true) os) /\ close f = Done (d, true) /\
    holds content at_ (concat (map bytes_of os)) (data d).
Proof.
  intros F O. destruct (puts_quiet os _ content at_ [] (mk_writer r content at_ evs) O F) as (f & E & _ & W & Q). cbn [app] in W.
  destruct (close_spec f _ _ _ W) as (d & b & EC & D & QC). specialize (QC Q). subst b. exists f, d. split; [exact E|]. split; [exact EC|].
  rewrite D by reflexivity. apply putat_holds.
Qed.
Example C81_met : faultless [Upto 1; Upto 3] /\ Forall wop_ok [OWrite [1; 2]%N; OPutc 0xe9; OPutle 0x1234 2; OPutbe 0x1234 4; OPutb 7; OFlush] /\
  concat (map bytes_of [OWrite [1; 2]%N; OPutc 0xe9; OPutle 0x1234 2; OPutbe 0x1234 4; OPutb 7; OFlush]) = [1; 2; 0xc3; 0xa9; 0x34; 0x12; 0; 0; 0x12; 0x34; 7]%N.
Proof. split; [repeat constructor; eexists; reflexivity|]. split; [repeat constructor; cbn; lia|reflexivity]. Qed.
(* C81, any device: calls other than write that all report success, and a close that does, have put their bytes there. *)
Theorem C81_success_means_written_partial (content : list N) (at_ : nat) (evs : list event) (r : bool) (os : list wop) f ans d :
  Forall wop_ok os -> Forall (fun o => forall s, o <> OWrite s) os ->
  puts (mk r true (mkdev content at_ evs)) os = Done (f, ans) -> Forall (fun b => b = true) ans -> close f = Done (d, true) ->
  holds content at_ (concat (map bytes_of os)) (data d).
Proof.
  intros O NW E A C. pose proof (puts_any os _ content at_ [] (mk_writer r content at_ evs) O NW f ans E A) as W. cbn [app] in W.
  destruct (close_spec f _ _ _ W) as (d' & b & EC & D & _). rewrite C in EC. injection EC as <- <-. rewrite D by reflexivity. apply putat_holds.
Qed.
Example C81_success_met : exists f d, puts (mk false true (mkdev [5; 6; 7]%N 1 [Upto 1; Upto 1; Fault 5])) [OPutb 1; OPutc 65; OFlush] = Done (f, [true; true; true]) /\
  events (dv f) = [Fault 5] /\ close f = Done (d, false) /\ data d = [5; 1; 65]%N.
Proof. eexists _, _. split; [vm_compute; reflexivity|]. split; [vm_compute; reflexivity|]. split; vm_compute; reflexivity. Qed.
(* C81 refuted: "when every call and close report success, all bytes are in the file".  write drops the outcome of the
   flush it makes to get room: the bytes buffered before are lost. *)
Theorem C81_write_loses_refuted (big : list N) (content : list N) : length big = Bufsz -> length content <= Bufsz ->
  exists f d, puts (mk false true (mkdev content 0 [Fault 28])) [OPutb 1; OWrite big] = Done (f, [true; true]) /\
    close f = Done (d, true) /\ holds content 0 big (data d) /\ ~ holds content 0 (1%N :: big) (data d).
Proof.
  intros LB LC. pose proof Bufsz_big as BB. assert (NE : big <> []) by (destruct big; [cbn in LB; lia|discriminate]).
  set (b0 := upd (repeat 0%N Bufsz) 0 1%N). assert (LB0 : length b0 = Bufsz) by (unfold b0; rewrite upd_length; apply repeat_length).
  set (f1 := mkfile false true 0 [] 0 0 b0 1 (mkdev content 0 [Fault 28])).
  assert (E1 : putb (mk false true (mkdev content 0 [Fault 28])) 1%N = Done (f1, Ok 1)).
  { unfold putb, mk. cbn [wr negb]. unfold ensurewrite. cbn [wbuf wend]. rewrite repeat_length, Nat.sub_0_r.
    replace (1 <? Bufsz) with true by (symmetry; apply Nat.ltb_lt; lia). replace (Bufsz <? 1) with false by (symmetry; apply Nat.ltb_ge; lia). reflexivity. }
  set (f2 := mkfile false true 0 [] 0 0 b0 0 (mkdev content 0 [])).
  assert (E2 : flush f1 = Done (f2, false)).
  { unfold flush, f1. cbn [wr wbuf wend]. destruct b0 as [|x b]; [cbn in LB0; lia|]. reflexivity. }
  destruct (writebuf_loop_spec (S (length big)) (mkdev content 0 []) big 0) as (d & r & k & E3 & K1 & K2 & K3 & K4 & K5); [lia|].
  destruct (K5 (Forall_nil _)) as (Q & n & ->). destruct (K4 n eq_refl) as (-> & ->). rewrite firstn_all in K2.
  assert (E4 : write f1 big = Done (setdv f2 d, Ok (0 + length big))).
  { unfold write. rewrite E2. unfold f1 at 1 2 3. cbn [wr negb wbuf wend]. rewrite LB0, LB.
    replace (Bufsz <=? Bufsz - 1) with false by (symmetry; apply Nat.leb_gt; lia). unfold writebuf. cbn [f2 dv]. rewrite E3, LB. reflexivity. }
  exists (setdv f2 d), (fst (devclose d)). cbn [puts put]. rewrite E1. cbn [okr]. rewrite E4. cbn [okr]. split; [reflexivity|].
  assert (DC : exists d', devclose d = (d', true) /\ data d' = data d).
  { unfold devclose. unfold quiet in Q. destruct (events d) as [|[m|e] es]; [eauto|eexists; split; reflexivity|]. inversion Q as [|? ? (m & M) ?]; discriminate. }
  destruct DC as (d' & DC & DD). split.
  - unfold close, flush, f2. cbn [setdv wr wbuf wend firstn]. cbn. rewrite DC. reflexivity.
  - rewrite DC. cbn [fst]. rewrite DD, K2. cbn [data pos]. pose proof (putat_holds content 0 big) as H. split; [exact H|].
    intros (_ & _ & _ & L2). destruct H as (_ & _ & _ & L1). destruct big as [|x big]; [congruence|]. cbn [length] in *. lia.
Qed.
Example C81_write_loses_met : length (repeat 7%N Bufsz) = Bufsz /\ length [1; 2; 3]%N <= Bufsz.
Proof. pose proof Bufsz_big. split; [apply repeat_length|cbn; lia]. Qed.
(* C81 refuted: "a failed call may be tried again".  When the buffer is full and the device takes a part of it and then
   fails, putb keeps the whole buffer: trying again writes that part twice. *)
Theorem C81_retry_repeats_refuted (buf : list N) (b : N) : length buf = Bufsz ->
  exists f1 f2 d, puts (mk false true (mkdev [] 0 [Upto 1; Fault 4])) [OWrite buf; OPutb b] = Done (f1, [true; false]) /\
    puts f1 [OPutb b] = Done (f2, [true]) /\ close f2 = Done (d, true) /\ data d = hd 0%N buf :: buf ++ [b].
Proof.
  intros LB. pose proof Bufsz_big as BB. destruct buf as [|x buf']; [cbn in LB; lia|]. set (buf := x :: buf') in *.
  assert (E1 : write (mk false true (mkdev [] 0 [Upto 1; Fault 4])) buf = Done (mkfile false true 0 [] 0 0 buf Bufsz (mkdev [] 0 [Upto 1; Fault 4]), Ok Bufsz)).
  { unfold write, mk. cbn [wr negb wbuf wend]. rewrite repeat_length, LB, Nat.sub_0_r, Nat.leb_refl. unfold setw. cbn. do 3 f_equal.
    unfold blit. cbn [firstn app Nat.add]. rewrite skipn_all2 by (rewrite repeat_length; lia). apply app_nil_r. }
  set (f1 := mkfile false true 0 [] 0 0 buf Bufsz (mkdev [x] 1 [])).
  assert (FB : firstn Bufsz buf = buf) by (apply firstn_all2; lia).
  assert (E2 : putb (mkfile false true 0 [] 0 0 buf Bufsz (mkdev [] 0 [Upto 1; Fault 4])) b = Done (f1, Err (errtype 4))).
  { unfold putb. cbn [wr negb]. unfold ensurewrite. cbn [wbuf wend]. rewrite LB, Nat.sub_diag.
    replace (1 <? Bufsz) with true by (symmetry; apply Nat.ltb_lt; lia). cbn [Nat.ltb Nat.leb]. unfold writebuf. cbn [dv]. rewrite FB.
    replace (length buf) with (S (S (Bufsz - 2))) by lia. unfold buf at 1. cbn [writebuf_loop devwrite events data pos firstn length].
    destruct buf' as [|y buf']; [cbn in LB; lia|]. reflexivity. }
  assert (W : writer f1 [] 0 (x :: buf)).
  { unfold writer, f1. cbn [wr wbuf wend dv data pos]. split; [reflexivity|]. split; [exact LB|]. split; [lia|]. exists [x]. rewrite FB. auto. }
  destruct (puts_quiet [OPutb b] f1 [] 0 (x :: buf) W) as (f2 & E3 & _ & W2 & Q2); [repeat constructor|constructor|].
  destruct (close_spec f2 _ _ _ W2) as (d & b' & EC & D & QC). rewrite (QC Q2) in *. specialize (D eq_refl).
  exists f1, f2, d. cbn [puts put]. rewrite E1. cbn [okr]. rewrite E2. cbn [okr]. split; [reflexivity|]. split; [exact E3|]. split; [exact EC|].
  rewrite D. cbn [map bytes_of concat app hd buf]. unfold putat, overwrite. cbn. rewrite ?skipn_nil, ?app_nil_r. reflexivity.
Qed.
Example C81_retry_met : length (repeat 7%N Bufsz) = Bufsz. Proof. apply repeat_length. Qed.

(* C82: a session of parts, each starting with a seek and then only reading or only writing *)
Theorem C82_sessions (content : list N) (at_ : nat) (evs : list event) (l : list seg) (r : list (list answer)) (final : list N) :
  Forall (fun b => (b < 256)%N) content -> faultless evs -> Forall segshort l -> segs content l r final ->
  exists f d, session (mk true true (mkdev content at_ evs)) l = Done (f, r) /\ close f = Done (d, true) /\ data d = final.
Proof.
  intros B F S H. destruct (session_spec l _ content r final (mk_between content at_ evs F B) S H) as (f & E & BT).
  destruct (between_close f final BT) as (d & EC & D). exists f, d. auto.
Qed.
Example C82_met : segs [1; 2; 3; 4]%N [SegRead 1 [OGetb]; SegWrite 3 [OPutb 9; OPutb 8]; SegRead 2 [ORead 5]]
  [[AByte 2]; [ABool true; ABool true]; [ABytes [3; 9; 8]]]%N [1; 2; 3; 9; 8]%N.
Proof.
  eapply S_read; [eapply RA_cons; [apply R_getb|apply RA_nil]|]. eapply (S_write _ 3 [OPutb 9; OPutb 8]%N [1; 2; 3; 9; 8]%N).
  - repeat constructor.
  - repeat constructor.
  - apply (putat_holds [1; 2; 3; 4]%N 3 [9; 8]%N).
  - eapply S_read; [eapply RA_cons; [apply (R_read 5); discriminate|apply RA_nil]|apply S_nil].
Qed.
(* C82 refuted without the seek: a byte written after a read lands behind everything the buffer had fetched, ... *)
Theorem C82_write_after_read_refuted : exists f g d,
  calls (mk true true (mkdev [1; 2; 3; 4]%N 0 [])) [OGetb] = Done (f, [AByte 1%N]) /\ puts f [OPutb 9] = Done (g, [true]) /\ close g = Done (d, true) /\ data d = [1; 2; 3; 4; 9]%N /\ ~ holds [1; 2; 3; 4]%N 1 [9]%N (data d).
Proof.
  eexists _, _, _. split; [vm_compute; reflexivity|]. split; [vm_compute; reflexivity|]. split; [vm_compute; reflexivity|].
  split; [reflexivity|]. intros (H & _). specialize (H 0 ltac:(cbn; lia)). discriminate.
Qed.
(* ... and a read after a write sees the old bytes at the place being written. *)
Theorem C82_read_after_write_refuted : exists f g,
  puts (mk true true (mkdev [1; 2; 3; 4]%N 0 [])) [OPutb 9] = Done (f, [true]) /\ calls f [OGetb; OGetb] = Done (g, [AByte 1; AByte 2]%N).
Proof. eexists _, _. split; vm_compute; reflexivity. Qed.
(* C82 refuted: seek drops the outcome of its flush: every call and close succeed and the byte is not there. *)
Theorem C82_seek_loses_refuted : exists f g d,
  puts (mk true true (mkdev [1; 2]%N 0 [Fault 28])) [OPutb 9] = Done (f, [true]) /\ seek f 1 = Done (g, Ok 1) /\ close g = Done (d, true) /\ data d = [1; 2]%N.
Proof. eexists _, _, _. split; [vm_compute; reflexivity|]. split; [vm_compute; reflexivity|]. split; vm_compute; reflexivity. Qed.

Print Assumptions C79_reads. Print Assumptions C79_no_byte_lost. Print Assumptions C79_eof_refuted.
Print Assumptions C79_fault_unreported_refuted. Print Assumptions C79_waits_refuted.
Print Assumptions C80_fault_loses_line_refuted. Print Assumptions C80_fault_loses_delim_refuted.
Print Assumptions C80_overlong_newline_refuted. Print Assumptions C80_long_delimiter_refuted.
Print Assumptions C81_writes. Print Assumptions C81_success_means_written_partial. Print Assumptions C81_write_loses_refuted.
Print Assumptions C81_retry_repeats_refuted. Print Assumptions C82_sessions. Print Assumptions C82_write_after_read_refuted.
Print Assumptions C82_read_after_write_refuted. Print Assumptions C82_seek_loses_refuted.
