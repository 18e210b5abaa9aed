From Verif Require Import Base Utf_Spec Utf_Proofs Tok_Model Tok_Spec Tok_Proofs Tok_Oper Tok_Num.
From Coq Require Import ZifyBool ZifyN ZifyNat Lia.
Local Open Scope N_scope.
Local Open Scope list_scope.

(* ---- UTF-8 ---- *)
Lemma lor_c0 x : x < 32 -> N.lor x 0xc0 = 0xc0 + x.
Proof. intros H. apply N.eqb_eq. revert x H. apply (below_all (fun x => N.lor x 192 =? 192 + x) 32). vm_compute; reflexivity. Qed.
Lemma lor_e0 x : x < 16 -> N.lor x 0xe0 = 0xe0 + x.
Proof. intros H. apply N.eqb_eq. revert x H. apply (below_all (fun x => N.lor x 224 =? 224 + x) 16). vm_compute; reflexivity. Qed.
Lemma lor_f0 x : x < 8 -> N.lor x 0xf0 = 0xf0 + x.
Proof. intros H. apply N.eqb_eq. revert x H. apply (below_all (fun x => N.lor x 240 =? 240 + x) 8). vm_compute; reflexivity. Qed.
Lemma appendc_utf8 v : v <= 0x10FFFF -> appendc v = Some (utf8 v).
Proof.
  intros H. unfold appendc, utf8. destruct (N.ltb_spec v 0x80); [reflexivity|].
  destruct (N.ltb_spec v 0x800). { unfold Tok_Model.encode. rewrite lor_c0, cont; [reflexivity|apply N.div_lt_upper_bound; lia]. }
  destruct (N.ltb_spec v 0x10000).
  { unfold Tok_Model.encode. rewrite !cont, lor_e0; rewrite !N.div_div by lia; [reflexivity|apply N.div_lt_upper_bound; lia]. }
  destruct (N.ltb_spec v 0x200000); [|lia].
  unfold Tok_Model.encode. rewrite !cont, lor_f0; rewrite !N.div_div by lia; [reflexivity|apply N.div_lt_upper_bound; lia].
Qed.

(* ---- escapes ---- *)
Lemma value_ge ds : forall v, v <= value 16 v ds.
Proof. induction ds as [|d ds IH]; intros v; cbn [value]; [lia|]. pose proof (IH (16 * v + d)). lia. Qed.
Lemma unidigits_sound s : forall v v' r, v <= 0x10FFFF -> unidigits v s = Ok (v', r) ->
  exists t ds, s = t ++ 125 :: r /\ hexdigits t ds /\ v' = value 16 v ds /\ v' <= 0x10FFFF.
Proof.
  induction s as [|c s IH]; intros v v' r L E; cbn [unidigits] in E; [discriminate|].
  destruct (hexval c) as [d|] eqn:H.
  - destruct (N.ltb_spec 0x10FFFF (16 * v + d)); [discriminate|].
    destruct (IH (16 * v + d) v' r ltac:(lia) E) as (t & ds & -> & X & -> & LE).
    exists (c :: t), (d :: ds). repeat split; auto. constructor; auto. apply hexval_iff; auto.
  - destruct (N.eqb_spec c 125); [|discriminate]. injection E as <- <-. subst c. exists [], []. repeat split; auto. constructor.
Qed.
Lemma unidigits_complete t ds : hexdigits t ds -> forall v r, value 16 v ds <= 0x10FFFF ->
  unidigits v (t ++ 125 :: r) = Ok (value 16 v ds, r).
Proof.
  induction 1 as [|c d t ds D H IH]; intros v r L; cbn [app unidigits value]; [reflexivity|].
  rewrite (proj2 (hexval_iff c d) D). cbn [value] in L. pose proof (value_ge ds (16 * v + d)).
  destruct (N.ltb_spec 0x10FFFF (16 * v + d)); [lia|]. apply IH. exact L.
Qed.
Lemma decode_sound s v b r : decode s = Ok (v, b, r) -> exists e, escape e v b /\ s = e ++ r.
Proof.
  unfold decode. destruct s as [|c s]; [discriminate|].
  destruct (N.eqb_spec c 117) as [->|N1].
  { unfold unichar. destruct (mtch 123 s) as [s1|] eqn:M; [|discriminate]. apply mtch_some in M as ->.
    destruct (unidigits 0 s1) as [[v' r']| | |] eqn:U; try discriminate.
    destruct (unidigits_sound s1 0 v' r' ltac:(lia) U) as (t & ds & -> & H & -> & L).
    rewrite (appendc_utf8 _ L). intros E; injection E as <- <- <-. exists (117 :: 123 :: t ++ [125]). split; [econstructor; eauto|].
    cbn [app]. rewrite <- app_assoc. reflexivity. }
  destruct (N.eqb_spec c 120) as [->|N2].
  { destruct s as [|c1 [|c2 s]]; try discriminate.
    destruct (hexval c1) as [x|] eqn:X; [|discriminate]. destruct (hexval c2) as [y|] eqn:Y; [|discriminate].
    intros E; injection E as <- <- <-. exists [120; c1; c2]. split; [constructor; apply hexval_iff; auto|reflexivity]. }
  repeat match goal with |- (if ?c =? ?k then _ else _) = _ -> _ => destruct (N.eqb_spec c k) as [->|] end; intros E; try discriminate;
  injection E as <- <- <-;
  match goal with |- exists e, escape e ?v [?v] /\ ?c :: ?s = _ => exists [c]; split; [constructor; unfold simple_escapes; cbn [In]; tauto|reflexivity] end.
Qed.
Lemma decode_complete e v b r : escape e v b -> decode (e ++ r) = Ok (v, b, r).
Proof.
  destruct 1 as [c v I|c d x y X Y|t ds v H -> L].
  - unfold simple_escapes in I. cbn [In] in I. repeat (destruct I as [I|I]; [injection I as <- <-; reflexivity|]). destruct I.
  - cbn [app decode N.eqb Pos.eqb]. rewrite (proj2 (hexval_iff _ _) X), (proj2 (hexval_iff _ _) Y). reflexivity.
  - cbn [app decode N.eqb Pos.eqb]. unfold unichar. cbn [mtch N.eqb Pos.eqb]. rewrite <- app_assoc. cbn [app].
    rewrite (unidigits_complete t ds H 0 r L). cbv iota. rewrite (appendc_utf8 _ L). reflexivity.
Qed.
Lemma unidigits_never s : forall v, match unidigits v s with Ok _ | Fatal => True | _ => False end.
Proof.
  induction s as [|c s IH]; intros v; cbn [unidigits]; [exact I|]. destruct (hexval c) as [d|].
  - destruct (0x10FFFF <? 16 * v + d); [exact I|apply IH].
  - destruct (c =? 125); exact I.
Qed.
Lemma decode_never s : match decode s with Ok _ | Fatal => True | _ => False end.
Proof.
  unfold decode. destruct s as [|c s]; [exact I|]. destruct (c =? 117).
  - unfold unichar. destruct (mtch 123 s) as [s1|]; [|exact I]. pose proof (unidigits_never s1 0) as H.
    destruct (unidigits 0 s1) as [[v r]| | |]; try exact H. destruct (appendc v); exact I.
  - destruct (c =? 120).
    + destruct s as [|c1 [|c2 s]]; try exact I. destruct (hexval c1), (hexval c2); exact I.
    + repeat match goal with |- context [if ?b then _ else _] => destruct b end; exact I.
Qed.
Lemma escape_len e v b : escape e v b -> (1 <= length e)%nat.
Proof. destruct 1; cbn; lia. Qed.

(* ---- strings ---- *)
Lemma strlit_sound fuel : forall s b r, strlit fuel s = Ok (b, r) -> exists t, s = t ++ 34 :: r /\ spells t b.
Proof.
  induction fuel as [|fuel IH]; intros s b r E; cbn [strlit] in E; [discriminate|].
  destruct s as [|c s]; [discriminate|].
  destruct (N.eqb_spec c 34) as [->|N1]. { injection E as <- <-. exists []. split; [reflexivity|constructor]. }
  destruct (N.eqb_spec c 255) as [->|N2]; [discriminate|].
  destruct (N.eqb_spec c 10) as [->|N3]; [discriminate|].
  destruct (N.eqb_spec c 92) as [->|N4].
  - destruct (decode s) as [[[v x] s2]| | |] eqn:D; try discriminate.
    destruct (strlit fuel s2) as [[b' r']| | |] eqn:S; try discriminate. injection E as <- <-.
    destruct (decode_sound _ _ _ _ D) as (e & ES & ->). destruct (IH _ _ _ S) as (t & -> & SP).
    exists (92 :: e ++ t). split; [cbn; rewrite <- app_assoc; reflexivity|]. econstructor; eauto.
  - destruct (strlit fuel s) as [[b' r']| | |] eqn:S; try discriminate. injection E as <- <-.
    destruct (IH _ _ _ S) as (t & -> & SP). exists (c :: t). split; [reflexivity|]. constructor; auto.
Qed.
Lemma strlit_complete t b : spells t b -> forall fuel r, (length (t ++ 34%N :: r) < fuel)%nat -> strlit fuel (t ++ 34 :: r) = Ok (b, r).
Proof.
  induction 1 as [|c t b N1 N2 N3 N4 S IH|e v x t b ES S IH]; intros fuel r F; (destruct fuel as [|fuel]; [lia|]); cbn [app strlit].
  - reflexivity.
  - apply N.eqb_neq in N1, N2, N3, N4. rewrite N1, N2, N3, N4. rewrite IH; [reflexivity|]. cbn [app length] in F. lia.
  - cbn [N.eqb Pos.eqb]. rewrite <- app_assoc. rewrite (decode_complete e v x _ ES). rewrite IH; [reflexivity|].
    pose proof (escape_len _ _ _ ES). cbn [app length] in F. rewrite <- app_assoc, app_length in F. lia.
Qed.
Lemma strlit_never fuel : forall s, (length s < fuel)%nat -> match strlit fuel s with Ok _ | Fatal => True | _ => False end.
Proof.
  induction fuel as [|fuel IH]; intros s F; [lia|]. cbn [strlit]. destruct s as [|c s]; [exact I|]. cbn [length] in F.
  destruct (c =? 34); [exact I|]. destruct (c =? 255); [exact I|]. destruct (c =? 10); [exact I|].
  destruct (c =? 92).
  - pose proof (decode_never s) as H. destruct (decode s) as [[[v x] s2]| | |] eqn:D; try exact H.
    destruct (decode_sound _ _ _ _ D) as (e & ES & ->). pose proof (escape_len _ _ _ ES). rewrite app_length in F.
    specialize (IH s2 ltac:(lia)). destruct (strlit fuel s2) as [[? ?]| | |]; exact IH.
  - specialize (IH s ltac:(lia)). destruct (strlit fuel s) as [[? ?]| | |]; exact IH.
Qed.

(* ---- characters ---- *)
Definition byte (c : N) : Prop := c < 256.
Lemma cont_byte c : byte c -> (N.land c 0xc0 =? 0x80) = true -> exists x, x < 64 /\ c = 128 + x /\ N.land c 0x3f = x.
Proof.
  intros B. apply (below_all (fun c => negb (N.land c 0xc0 =? 0x80) || ((128 <=? c) && (c <? 192))) 256) in B as H; [|vm_compute; reflexivity].
  intros E. rewrite E in H. cbn in H. exists (c - 128). rewrite land_3f. repeat split; lia.
Qed.
Lemma is_cont x : x < 64 -> (N.land (128 + x) 0xc0 =? 0x80) = true /\ N.land (128 + x) 0x3f = x.
Proof.
  intros H. split; [|rewrite land_3f; lia]. revert x H. apply (below_all (fun x => N.land (128 + x) 192 =? 128) 64). vm_compute; reflexivity.
Qed.
Lemma lor_64 a b : b < 64 -> N.lor (a * 64) b = 64 * a + b.
Proof. intros H. rewrite <- (shift_or a b H). rewrite N.shiftl_mul_pow2. reflexivity. Qed.
Lemma lead_1 c : c < 128 -> N.land c 0x80 = 0 /\ N.land c 0x7f = c.
Proof.
  intros H. split; [apply N.eqb_eq; revert c H; apply (below_all (fun c => N.land c 128 =? 0) 128); vm_compute; reflexivity|].
  apply N.eqb_eq; revert c H; apply (below_all (fun c => N.land c 127 =? c) 128); vm_compute; reflexivity.
Qed.
Definition form (c : N) : option (nat * N) :=
  if N.land c 0x80 =? 0 then Some (0%nat, N.land c 0x7f)
  else if N.land c 0xe0 =? 0xc0 then Some (1%nat, N.land c 0x3f)
  else if N.land c 0xf0 =? 0xe0 then Some (2%nat, N.land c 0x1f)
  else if N.land c 0xf8 =? 0xf0 then Some (3%nat, N.land c 0x0f)
  else None.
Definition want (c : N) : option (nat * N) :=
  if c <? 128 then Some (0%nat, c) else if c <? 192 then None else if c <? 224 then Some (1%nat, c - 192)
  else if c <? 240 then Some (2%nat, c - 224) else if c <? 248 then Some (3%nat, c - 240) else None.
Lemma form_want c : c < 256 -> form c = want c.
Proof.
  intros H. set (same := fun a b : option (nat * N) => match a, b with
    | Some (n, x), Some (m, y) => Nat.eqb n m && (x =? y) | None, None => true | _, _ => false end).
  assert (X : same (form c) (want c) = true) by (revert c H; apply (below_all (fun c => same (form c) (want c)) 256); vm_compute; reflexivity).
  destruct (form c) as [[n x]|], (want c) as [[m y]|]; cbn in X; try discriminate; auto.
  apply andb_prop in X as [A B]. apply Nat.eqb_eq in A. apply N.eqb_eq in B. subst; reflexivity.
Qed.
Lemma readutf_form c s : readutf c s = match form c with Some (n, v) => utfcont n v s | None => Fatal end.
Proof.
  unfold readutf, form. repeat match goal with |- context [if ?b then _ else _] => destruct b end; reflexivity.
Qed.
Lemma utfcont_S n val s : utfcont (S n) val s = match s with
  | [] => Fatal | c :: s => if N.land c 0xc0 =? 0x80 then utfcont n (N.lor (val * 64) (N.land c 0x3f)) s else Fatal end.
Proof. reflexivity. Qed.
Lemma utfcont_sound n : forall val s v r, Forall byte s -> utfcont (S n) val s = Ok (v, r) ->
  exists x s', x < 64 /\ s = 128 + x :: s' /\ utfcont n (64 * val + x) s' = Ok (v, r) /\ Forall byte s'.
Proof.
  intros val s v r B E. rewrite utfcont_S in E. destruct s as [|c s]; [discriminate|]. inversion B as [|? ? BC BS]; subst.
  destruct (N.land c 0xc0 =? 0x80) eqn:C; [|discriminate]. destruct (cont_byte c BC C) as (x & L & -> & X).
  rewrite X, lor_64 in E by auto. exists x, s. auto.
Qed.
Lemma readutf_sound c s v r : Forall byte (c :: s) -> readutf c s = Ok (v, r) -> exists t, c :: s = t ++ r /\ utf_like t v.
Proof.
  intros B. inversion B as [|? ? BC BS]; subst. rewrite readutf_form, (form_want c BC). unfold want.
  destruct (N.ltb_spec c 128). { intros E; injection E as <- <-. exists [c]. split; [reflexivity|]. constructor; auto. }
  destruct (N.ltb_spec c 192); [discriminate|].
  destruct (N.ltb_spec c 224).
  { intros E. destruct (utfcont_sound 0 _ _ _ _ BS E) as (x & s' & X & -> & E1 & B1). injection E1 as <- <-.
    exists [192 + (c - 192); 128 + x]. split; [cbn [app]; f_equal; lia|]. constructor; lia. }
  destruct (N.ltb_spec c 240).
  { intros E. destruct (utfcont_sound 1 _ _ _ _ BS E) as (x & s' & X & -> & E1 & B1).
    destruct (utfcont_sound 0 _ _ _ _ B1 E1) as (y & s'' & Y & -> & E2 & B2). injection E2 as <- <-.
    exists [224 + (c - 224); 128 + x; 128 + y]. split; [cbn [app]; f_equal; lia|]. constructor; lia. }
  destruct (N.ltb_spec c 248); [|discriminate].
  intros E. destruct (utfcont_sound 2 _ _ _ _ BS E) as (x & s' & X & -> & E1 & B1).
  destruct (utfcont_sound 1 _ _ _ _ B1 E1) as (y & s'' & Y & -> & E2 & B2).
  destruct (utfcont_sound 0 _ _ _ _ B2 E2) as (z & s3 & Z & -> & E3 & B3). injection E3 as <- <-.
  exists [240 + (c - 240); 128 + x; 128 + y; 128 + z]. split; [cbn [app]; f_equal; lia|]. constructor; lia.
Qed.
Lemma utfcont_step n val x s : x < 64 -> utfcont (S n) val (128 + x :: s) = utfcont n (64 * val + x) s.
Proof. intros X. rewrite utfcont_S. destruct (is_cont x X) as [A B]. rewrite A, B, lor_64 by auto. reflexivity. Qed.
Lemma readutf_complete t v r : utf_like t v -> exists c s, t = c :: s /\ readutf c (s ++ r) = Ok (v, r).
Proof.
  destruct 1 as [c L|a b A B|a b c A B C|a b c d A B C D]; eexists; eexists; (split; [reflexivity|]); rewrite readutf_form, form_want by lia; unfold want.
  - destruct (N.ltb_spec c 128); [reflexivity|lia].
  - destruct (N.ltb_spec (192 + a) 128); [lia|]. destruct (N.ltb_spec (192 + a) 192); [lia|]. destruct (N.ltb_spec (192 + a) 224); [|lia].
    cbn [app]. rewrite utfcont_step by auto. cbn [utfcont]. do 3 f_equal. lia.
  - destruct (N.ltb_spec (224 + a) 128); [lia|]. destruct (N.ltb_spec (224 + a) 192); [lia|]. destruct (N.ltb_spec (224 + a) 224); [lia|].
    destruct (N.ltb_spec (224 + a) 240); [|lia].
    cbn [app]. rewrite !utfcont_step by auto. cbn [utfcont]. do 3 f_equal. lia.
  - destruct (N.ltb_spec (240 + a) 128); [lia|]. destruct (N.ltb_spec (240 + a) 192); [lia|]. destruct (N.ltb_spec (240 + a) 224); [lia|].
    destruct (N.ltb_spec (240 + a) 240); [lia|]. destruct (N.ltb_spec (240 + a) 248); [|lia].
    cbn [app]. rewrite !utfcont_step by auto. cbn [utfcont]. do 3 f_equal. lia.
Qed.
Lemma utf8_like c : c < 0x200000 -> utf_like (utf8 c) c.
Proof.
  intros L. unfold utf8. destruct (N.ltb_spec c 0x80); [constructor; auto|].
  destruct (N.ltb_spec c 0x800).
  { replace c with (64 * (c / 64) + c mod 64) at 3 by lia. constructor; lia. }
  destruct (N.ltb_spec c 0x10000).
  { replace c with (64 * (64 * (c / 4096) + c / 64 mod 64) + c mod 64) at 4 by lia. constructor; lia. }
  replace c with (64 * (64 * (64 * (c / 262144) + c / 4096 mod 64) + c / 64 mod 64) + c mod 64) at 5 by lia. constructor; lia.
Qed.

Lemma utf_like_head t v : utf_like t v -> match t with [] => False | c :: _ => (c < 128 /\ length t = 1%nat) \/ 192 <= c < 248 end.
Proof. destruct 1; cbn [length]; lia. Qed.
Lemma utfcont_never n : forall v s, match utfcont n v s with Ok _ | Fatal => True | _ => False end.
Proof. induction n as [|n IH]; intros v s; [exact I|]. rewrite utfcont_S. destruct s as [|c s]; [exact I|]. destruct (_ =? _); [apply IH|exact I]. Qed.
Lemma charlit_never s : match charlit s with Ok _ | Fatal => True | _ => False end.
Proof.
  unfold charlit. destruct s as [|c s]; [exact I|]. destruct (c =? 255); [exact I|]. destruct (c =? 10); [exact I|].
  destruct (c =? 92).
  - pose proof (decode_never s) as H. destruct (decode s) as [[[v b] r]| | |]; try exact H. destruct (mtch 39 r); exact I.
  - rewrite readutf_form. destruct (form c) as [[n v]|]; [|exact I]. pose proof (utfcont_never n v s) as H.
    destruct (utfcont n v s) as [[v' r]| | |]; try exact H. destruct (mtch 39 r); exact I.
Qed.
Lemma charlit_iff s v r : Forall byte s -> charlit s = Ok (v, r) <-> exists t, charform t v /\ s = t ++ 39 :: r.
Proof.
  intros B. split.
  - unfold charlit. destruct s as [|c s]; [discriminate|].
    destruct (N.eqb_spec c 255); [discriminate|]. destruct (N.eqb_spec c 10); [discriminate|].
    destruct (N.eqb_spec c 92) as [->|NB].
    + destruct (decode s) as [[[v' b] s1]| | |] eqn:D; try discriminate. destruct (mtch 39 s1) as [s2|] eqn:M; [|discriminate].
      apply mtch_some in M as ->. intros E; injection E as <- <-. destruct (decode_sound _ _ _ _ D) as (e & ES & ->).
      exists (92 :: e). split; [eapply ch_escape; eauto|reflexivity].
    + destruct (readutf c s) as [[v' s1]| | |] eqn:D; try discriminate. destruct (mtch 39 s1) as [s2|] eqn:M; [|discriminate].
      apply mtch_some in M as ->. intros E; injection E as <- <-. destruct (readutf_sound _ _ _ _ B D) as (t & E & U).
      exists t. split; [|auto]. apply ch_raw; [exact U| |]; intros ->; cbn in E; inversion E; subst; contradiction.
  - intros (t & C & ->). destruct C as [t v U N10 N92|e v b ES].
    + destruct (readutf_complete t v (39 :: r) U) as (c & s & -> & R). cbn [app charlit].
      assert (X : c <> 255 /\ c <> 10 /\ c <> 92).
      { pose proof (utf_like_head _ _ U) as H. cbn [length] in H. destruct s as [|x s]; [|cbn [length] in H; lia].
        repeat split; [lia|intros ->; congruence|intros ->; congruence]. }
      destruct X as (A1 & A2 & A3). apply N.eqb_neq in A1, A2, A3. rewrite A1, A2, A3, R. cbn. reflexivity.
    + cbn [app charlit N.eqb Pos.eqb]. rewrite (decode_complete e v b _ ES). cbn. reflexivity.
Qed.
