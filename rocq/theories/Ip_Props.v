(* C106 (IPv4 addresses), C107 (IPv6 addresses). *)
From Verif Require Import Base ListX Word Endian_Model IntFmt_Model IntFmt_Spec IntFmt_Proofs IntFmt_Props Ip_Model.
From Verif Require Str_Model Str_Spec Str_Proofs.
Open Scope Z_scope.

(* s writes v in a base, with any number of zeros in front *)
Definition writes (base v : Z) (s : list N) : Prop := exists k d, s = repeat 48%N k ++ d /\ numeral base v d.
(* the texts between the separators: no digit of any base up to 16 is a separator *)
Lemma writes_nosep : forall base v s sep, 2 <= base <= 16 -> writes base v s -> sep = 46%N \/ sep = 58%N -> ~ In sep s.
Proof.
  intros base v s sep Hb (k & d & -> & (ds & -> & F & _)) Hs I. apply in_app_or in I. destruct I as [I | I].
  - apply repeat_spec in I. destruct Hs; congruence.
  - apply in_map_iff in I. destruct I as (x & E & I). rewrite Forall_forall in F. specialize (F x I). unfold digit_char in E. destruct (Z.ltb_spec x 10); destruct Hs; lia.
Qed.
Lemma seplen_app : forall s sep r, ~ In sep s -> r = [] \/ (exists r', r = sep :: r') -> seplen (s ++ r) sep = length s.
Proof.
  intros s sep r H Hr. induction s as [ | c s IH].
  - destruct Hr as [-> | (r' & ->)]; [ reflexivity | ]. cbn [app seplen]. rewrite N.eqb_refl. reflexivity.
  - cbn [app seplen length]. destruct (N.eqb_spec c sep) as [-> | _]; [ exfalso; apply H; left; reflexivity | ]. rewrite IH; [ reflexivity | ]. intros I. apply H. right. exact I.
Qed.
Lemma num_ok : forall t v s r hi base sep, In t integer_types -> value_of t v -> 2 <= base <= 16 -> 0 <= v <= hi -> writes base v s -> sep = 46%N \/ sep = 58%N ->
  r = [] \/ (exists r', r = sep :: r') -> num t (s ++ r) 0 hi base sep true = (v, r, true).
Proof.
  intros t v s r hi base sep Ht Hv Hb Hr W Hs Hrest. unfold num. cbn [negb]. cbv zeta. rewrite seplen_app by (try exact Hrest; eapply writes_nosep; eassumption).
  rewrite firstn_app_exact, skipn_app_exact. destruct W as (k & d & -> & D).
  assert (P := C37_parse_numeral t base v d k Ht Hv Hb). rewrite Z.abs_eq in P by lia. destruct (P D) as [P1 _]. cbv zeta in P1.
  rewrite (proj2 (Z.ltb_ge v 0)) in P1 by lia. cbn [app] in P1. rewrite P1.
  rewrite (proj2 (Z.ltb_ge v 0)), (proj2 (Z.ltb_ge hi v)) by lia. reflexivity.
Qed.
Lemma delim_ok : forall sep r ok, delim (sep :: r) sep ok = (r, ok).
Proof. intros. unfold delim. rewrite N.eqb_refl. reflexivity. Qed.
Definition holds (t : ity) (hi : Z) : Prop := In t integer_types /\ forall v, 0 <= v <= hi -> value_of t v.

(* C106: four numbers from 0 to 255 in base ten with dots between them are the address of those four bytes.  Missing: that
   nothing else is accepted (C106_empty_refuted). *)
Theorem C106_quad_partial : forall t a b c d sa sb sc sd, holds t 255 ->
  0 <= a <= 255 -> 0 <= b <= 255 -> 0 <= c <= 255 -> 0 <= d <= 255 -> writes 10 a sa -> writes 10 b sb -> writes 10 c sc -> writes 10 d sd ->
  ip4parse t (sa ++ 46%N :: sb ++ 46%N :: sc ++ 46%N :: sd) = Some [a; b; c; d].
Proof.
  intros t a b c d sa sb sc sd [Ht Hv] Ha Hb Hc Hd Wa Wb Wc Wd. unfold ip4parse.
  rewrite (num_ok t a) by (try assumption; try lia; try (apply Hv; lia); try (left; reflexivity); right; eexists; reflexivity). rewrite delim_ok.
  rewrite (num_ok t b) by (try assumption; try lia; try (apply Hv; lia); try (left; reflexivity); right; eexists; reflexivity). rewrite delim_ok.
  rewrite (num_ok t c) by (try assumption; try lia; try (apply Hv; lia); try (left; reflexivity); right; eexists; reflexivity). rewrite delim_ok.
  rewrite <- (app_nil_r sd). rewrite (num_ok t d) by (try assumption; try lia; try (apply Hv; lia); left; reflexivity).
  cbn [length Nat.eqb andb]. rewrite !Z.mod_small by lia. reflexivity.
Qed.
Lemma seplen_split : forall ip sep, (skipn (seplen ip sep) ip = [] \/ exists r, skipn (seplen ip sep) ip = sep :: r) /\ ~ In sep (firstn (seplen ip sep) ip).
Proof.
  intros ip sep. induction ip as [ | c ip [IH1 IH2]]; [ split; [ left; reflexivity | intros [] ] | ]. cbn [seplen]. destruct (N.eqb_spec c sep) as [-> | H].
  - split; [ right; eexists; reflexivity | intros [] ].
  - cbn [skipn firstn]. split; [ exact IH1 | ]. intros [E | I]; [ congruence | contradiction ].
Qed.
Lemma num_inv : forall t ip hi base sep v r, num t ip 0 hi base sep true = (v, r, true) ->
  exists s, ip = s ++ r /\ ~ In sep s /\ intparsebase t s base = Some v /\ 0 <= v <= hi.
Proof.
  intros t ip hi base sep v r E. unfold num in E. cbn [negb] in E. cbv zeta in E. destruct (seplen_split ip sep) as [_ H].
  destruct (intparsebase t (firstn (seplen ip sep) ip) base) as [x | ] eqn:P; [ | discriminate E ].
  destruct (Z.ltb_spec x 0); [ discriminate E | ]. destruct (Z.ltb_spec hi x); [ discriminate E | ]. cbn [orb] in E. injection E as <- <-.
  exists (firstn (seplen ip sep) ip). split; [ symmetry; apply firstn_skipn | ]. split; [ exact H | ]. split; [ exact P | lia ].
Qed.
Lemma num_false : forall t ip hi base sep, num t ip 0 hi base sep false = (0, [], false).
Proof. reflexivity. Qed.
Lemma delim_inv : forall ip sep ok r, delim ip sep ok = (r, true) -> ip = sep :: r /\ ok = true.
Proof. intros ip sep ok r E. destruct ip as [ | c ip]; [ discriminate E | ]. cbn [delim] in E. destruct (N.eqb_spec c sep) as [-> | ]; [ | discriminate E ]. injection E as <- ->. split; reflexivity. Qed.
(* C106: what is accepted has three dots, and each of the four texts is read by intparsebase as a number from 0 to 255 *)
Theorem C106_accepts : forall t ip bytes, ip4parse t ip = Some bytes -> exists sa sb sc sd a b c d,
  ip = sa ++ 46%N :: sb ++ 46%N :: sc ++ 46%N :: sd /\ bytes = [a; b; c; d] /\
  Forall2 (fun s v => ~ In 46%N s /\ intparsebase t s 10 = Some v /\ 0 <= v <= 255) [sa; sb; sc; sd] [a; b; c; d].
Proof.
  intros t ip bytes E. unfold ip4parse in E.
  destruct (num t ip 0 255 10 46 true) as [[a i1] o1] eqn:N1. destruct (delim i1 46 o1) as [i2 o2] eqn:D1.
  destruct (num t i2 0 255 10 46 o2) as [[b i3] o3] eqn:N2. destruct (delim i3 46 o3) as [i4 o4] eqn:D2.
  destruct (num t i4 0 255 10 46 o4) as [[c i5] o5] eqn:N3. destruct (delim i5 46 o5) as [i6 o6] eqn:D3.
  destruct (num t i6 0 255 10 46 o6) as [[d i7] o7] eqn:N4. destruct o7; [ | discriminate E ]. destruct i7; [ | discriminate E ]. cbn [length Nat.eqb andb] in E.
  destruct o6; [ | discriminate N4 ]. apply delim_inv in D3. destruct D3 as [-> ->]. destruct o4; [ | discriminate N3 ]. apply delim_inv in D2. destruct D2 as [-> ->].
  destruct o2; [ | discriminate N2 ]. apply delim_inv in D1. destruct D1 as [-> ->].
  apply num_inv in N1, N2, N3, N4. destruct N1 as (sa & -> & ? & ? & ?), N2 as (sb & -> & ? & ? & ?), N3 as (sc & -> & ? & ? & ?), N4 as (sd & -> & ? & ? & ?).
  rewrite !Z.mod_small in E by lia. injection E as <-. exists sa, sb, sc, sd, a, b, c, d. split; [ rewrite app_nil_r; reflexivity | ]. split; [ reflexivity | ].
  repeat constructor; assumption || lia.
Qed.
(* C106, refuted: three dots alone, underscores and minus signs are accepted *)
Theorem C106_empty_refuted : forall t, In t integer_types -> ip4parse t [46; 46; 46]%N = Some [0; 0; 0; 0] /\
  ip4parse t [49; 95; 48; 46; 45; 48; 46; 45; 46; 95]%N = Some [10; 0; 0; 0].
Proof. intros t Ht. repeat (destruct Ht as [<- | Ht]; [ split; vm_compute; reflexivity | ]). destruct Ht. Qed.

(* C107: eight groups of hexadecimal digits with colons between them are the address of those 16-bit numbers, upper byte
   first.  Missing: that groups beyond 16 bits are refused (C107_group_refuted), the short forms
   in general, which other texts are refused, and the choice between the two forms in ipparse. *)
Lemma bytes_of : forall v, 0 <= v < 65536 -> Z.land v 0xff00 / 2 ^ 8 mod 256 = v / 256 /\ Z.land v 0xff = v mod 256.
Proof.
  intros v H. split.
  - rewrite <- Z.shiftr_div_pow2 by lia. rewrite Z.shiftr_land. change (Z.shiftr 0xff00 8) with (Z.ones 8). rewrite Z.land_ones by lia.
    rewrite Z.shiftr_div_pow2 by lia. rewrite Z.mod_mod by lia. apply Z.mod_small. split; [ apply Z.div_pos; lia | apply Z.div_lt_upper_bound; lia ].
  - change 0xff with (Z.ones 8). apply Z.land_ones. lia.
Qed.
Lemma writes_cons : forall base v s, writes base v s -> s <> [].
Proof.
  intros base v s (k & d & -> & (ds & -> & _ & _ & N)). destruct N as [-> | (x & ds' & -> & _)]; destruct k; discriminate.
Qed.
(* one round that is not the last *)
Lemma seg_more : forall fuel t v s x r vs n, holds t 65536 -> 0 <= v < 65536 -> writes 16 v s -> x <> 58%N -> (n < 7)%nat ->
  seg (S fuel) t (mk6 (s ++ 58%N :: x :: r) vs n false 0 true) = seg fuel t (mk6 (x :: r) (upd (upd vs (n * 2) (v / 256)) (n * 2 + 1) (v mod 256)) (S n) false 0 true).
Proof.
  intros fuel t v s x r vs n [Ht Hv] H W X Hn. cbn [seg rest good nseg val expand segsplit].
  assert (L : (0 <? length (s ++ 58%N :: x :: r))%nat = true) by (rewrite app_length; cbn [length]; apply Nat.ltb_lt; lia). rewrite L. cbn [andb negb].
  rewrite (num_ok t v) by (try assumption; try lia; try (apply Hv; lia); try (right; reflexivity); right; eexists; reflexivity). cbv zeta.
  destruct (bytes_of v H) as [-> ->]. change (length (58%N :: x :: r) =? 0)%nat with false. cbn [orb]. rewrite (proj2 (Nat.eqb_neq (S n) 8)) by lia.
  rewrite delim_ok. cbn [length Nat.ltb Nat.leb nth andb]. rewrite (proj2 (N.eqb_neq x 58)) by exact X. reflexivity.
Qed.
Lemma seg_last : forall fuel t v s vs, holds t 65536 -> 0 <= v < 65536 -> writes 16 v s ->
  seg (S fuel) t (mk6 s vs 7 false 0 true) = mk6 [] (upd (upd vs 14 (v / 256)) 15 (v mod 256)) 8 false 0 true.
Proof.
  intros fuel t v s vs [Ht Hv] H W. cbn [seg rest good nseg val expand segsplit]. assert (S := writes_cons _ _ _ W).
  assert (L : (0 <? length s)%nat = true) by (destruct s; [ congruence | reflexivity ]). rewrite L. cbn [andb negb]. clear L S.
  rewrite <- (app_nil_r s). rewrite (num_ok t v) by (try assumption; try lia; try (apply Hv; lia); try (right; reflexivity); left; reflexivity). cbv zeta.
  destruct (bytes_of v H) as [-> ->]. reflexivity.
Qed.
Lemma writes_head : forall v s, writes 16 v s -> exists x r, s = x :: r /\ x <> 58%N.
Proof.
  intros v s W. assert (S := writes_cons _ _ _ W). assert (N := writes_nosep 16 v s 58%N ltac:(lia) W (or_intror eq_refl)).
  destruct s as [ | x r]; [ congruence | ]. exists x, r. split; [ reflexivity | ]. intros ->. apply N. left. reflexivity.
Qed.
Theorem C107_groups_partial : forall t junk v0 v1 v2 v3 v4 v5 v6 v7 s0 s1 s2 s3 s4 s5 s6 s7, holds t 65536 -> length junk = 16%nat ->
  Forall2 (fun v s => 0 <= v < 65536 /\ writes 16 v s) [v0; v1; v2; v3; v4; v5; v6; v7] [s0; s1; s2; s3; s4; s5; s6; s7] ->
  ip6parse t junk (s0 ++ 58%N :: s1 ++ 58%N :: s2 ++ 58%N :: s3 ++ 58%N :: s4 ++ 58%N :: s5 ++ 58%N :: s6 ++ 58%N :: s7)
    = Some (concat (map (fun v => [v / 256; v mod 256]) [v0; v1; v2; v3; v4; v5; v6; v7])).
Proof.
  intros t junk v0 v1 v2 v3 v4 v5 v6 v7 s0 s1 s2 s3 s4 s5 s6 s7 Ht Lj F.
  repeat match goal with H : Forall2 _ (_ :: _) _ |- _ => inversion H; clear H; subst end.
  repeat match goal with H : _ /\ writes _ _ _ |- _ => destruct H end.
  assert (First : forall r, (2 <? length (s0 ++ 58%N :: r))%nat && Str_Model.sleq (firstn 2 (s0 ++ 58%N :: r)) [58; 58]%N = false).
  { intros r. apply andb_false_iff. right. destruct (writes_head v0 s0 ltac:(assumption)) as (x & y & -> & X).
    destruct (Str_Model.sleq _ _) eqn:E; [ | reflexivity ]. apply Str_Proofs.sleq_spec in E. apply (f_equal (hd 0%N)) in E. cbn in E. contradiction. }
  unfold ip6parse. rewrite First. cbv zeta.
  do 16 (destruct junk as [ | ? junk]; [ discriminate Lj | ]). destruct junk; [ | discriminate Lj ]. clear Lj First.
  destruct (writes_head v1 s1 ltac:(assumption)) as (x1 & y1 & -> & X1). destruct (writes_head v2 s2 ltac:(assumption)) as (x2 & y2 & -> & X2).
  destruct (writes_head v3 s3 ltac:(assumption)) as (x3 & y3 & -> & X3). destruct (writes_head v4 s4 ltac:(assumption)) as (x4 & y4 & -> & X4).
  destruct (writes_head v5 s5 ltac:(assumption)) as (x5 & y5 & -> & X5). destruct (writes_head v6 s6 ltac:(assumption)) as (x6 & y6 & -> & X6).
  destruct (writes_head v7 s7 ltac:(assumption)) as (x7 & y7 & -> & X7). cbn [app].
  rewrite (seg_more _ t v0 s0) by (assumption || lia).
  change (x1 :: y1 ++ ?r) with ((x1 :: y1) ++ r). rewrite (seg_more _ t v1) by (assumption || lia).
  change (x2 :: y2 ++ ?r) with ((x2 :: y2) ++ r). rewrite (seg_more _ t v2) by (assumption || lia).
  change (x3 :: y3 ++ ?r) with ((x3 :: y3) ++ r). rewrite (seg_more _ t v3) by (assumption || lia).
  change (x4 :: y4 ++ ?r) with ((x4 :: y4) ++ r). rewrite (seg_more _ t v4) by (assumption || lia).
  change (x5 :: y5 ++ ?r) with ((x5 :: y5) ++ r). rewrite (seg_more _ t v5) by (assumption || lia).
  change (x6 :: y6 ++ ?r) with ((x6 :: y6) ++ r). rewrite (seg_more _ t v6) by (assumption || lia).
  rewrite (seg_last _ t v7) by assumption. reflexivity.
Qed.
(* C107, refuted: the group 10000 is accepted and read as 0; :: may be written with three colons *)
Theorem C107_group_refuted : forall t junk, holds t 65536 -> length junk = 16%nat ->
  ip6parse t junk [49; 48; 48; 48; 48; 58; 58; 49]%N = Some (repeat 0 15 ++ [1]) /\
  ip6parse t junk [49; 58; 58; 58; 50]%N = Some ([0; 1] ++ repeat 0 13 ++ [2]).
Proof.
  intros t junk [Ht Hv] Lj. assert (V := Hv 65536 ltac:(lia)). clear Hv.
  do 16 (destruct junk as [ | ? junk]; [ discriminate Lj | ]). destruct junk; [ | discriminate Lj ]. clear Lj.
  repeat (destruct Ht as [<- | Ht]; [ first [ split; vm_compute; reflexivity | exfalso; vm_compute in V; intuition congruence ] | ]). destruct Ht.
Qed.
Lemma holds_int : holds int32 65536.
Proof. split; [ cbn; tauto | ]. intros v H. unfold value_of. cbn. lia. Qed.
(* 127.0.0.1, fe80::1, ::1 and ::, at the type int *)
Example C106_met : ip4parse int32 [49; 50; 55; 46; 48; 46; 48; 46; 49]%N = Some [127; 0; 0; 1] /\ ip4parse int32 [50; 53; 54; 46; 48; 46; 48; 46; 49]%N = None /\
  writes 10 7 [48; 55]%N.
Proof.
  split; [ reflexivity | ]. split; [ reflexivity | ]. exists 1%nat, [55%N]. split; [ reflexivity | ]. exists [7]. split; [ reflexivity | ]. split; [ repeat constructor; lia | ].
  split; [ reflexivity | ]. right. exists 7, []. split; [ reflexivity | lia ].
Qed.
Example C107_met : ip6parse int32 (repeat 9 16) [102; 101; 56; 48; 58; 58; 49]%N = Some ([254; 128] ++ repeat 0 13 ++ [1]) /\
  ip6parse int32 (repeat 9 16) [58; 58; 49]%N = Some (repeat 0 15 ++ [1]) /\ ip6parse int32 (repeat 9 16) [58; 58]%N = Some (repeat 0 16).
Proof. repeat split; vm_compute; reflexivity. Qed.
Print Assumptions C106_quad_partial.
Print Assumptions C106_accepts.
Print Assumptions C106_empty_refuted.
Print Assumptions C107_groups_partial.
Print Assumptions C107_group_refuted.
