(* Writing and reading back a use file: each reader undoes its writer. *)
From Verif Require Import Base Word CPack_Model CPack_Proofs Use_Model Use_Spec.
Open Scope Z_scope.

Definition reads {A} (r : rdr A) (w : stream) (a : A) : Prop := forall s, r (w ++ s) = RVal a s.

Lemma reads_ret {A} (a : A) : reads (ret a) [] a.
Proof. intros s. reflexivity. Qed.
Lemma reads_bind {A B} (r : rdr A) (k : A -> rdr B) w w' a b :
  reads r w a -> reads (k a) w' b -> reads (bind r k) (w ++ w') b.
Proof. intros H K s. unfold bind. rewrite <- app_assoc, H. apply K. Qed.
(* the last reader of a chain, followed by [ret] *)
Lemma reads_last {A B} (r : rdr A) (g : A -> B) w a :
  reads r w a -> reads (bind r (fun x => ret (g x))) w (g a).
Proof. intros H s. unfold bind. rewrite H. reflexivity. Qed.

Lemma i32_ok z : i32 z = true -> - 2 ^ 31 <= z < 2 ^ 31.
Proof. unfold i32. rewrite andb_true_iff, Z.leb_le, Z.ltb_lt. tauto. Qed.
Lemma i8_ok z : i8 z = true -> - 2 ^ 7 <= z < 2 ^ 7.
Proof. unfold i8. rewrite andb_true_iff, Z.leb_le, Z.ltb_lt. tauto. Qed.
Lemma nat31_ok z : nat31 z = true -> 0 <= z < 2 ^ 31.
Proof. unfold nat31. rewrite andb_true_iff, Z.leb_le, Z.ltb_lt. tauto. Qed.

Lemma reads_int z : i32 z = true -> reads gint (wrint z) z.
Proof. intros H s. apply i32_ok in H. unfold gint, lift. rewrite rdint_wrint by lia. reflexivity. Qed.
Lemma reads_int_any z : reads gint (wrint z) (swrap 32 z).
Proof.
  intros s. unfold gint, lift, rdint, wrint. rewrite <- (be32_len z), rdbuf_app, host32_be32. reflexivity.
Qed.
Lemma reads_byte z : i8 z = true -> reads gbyte (wrbyte z) z.
Proof. intros H s. apply i8_ok in H. unfold gbyte, lift. rewrite rdbyte_wrbyte by lia. reflexivity. Qed.
Lemma reads_bool z : i8 z = true -> reads gbool (wrbool z) z.
Proof.
  intros H s. apply i8_ok in H. unfold gbool, lift, rdbool, wrbool. rewrite swrap_small by lia.
  rewrite rdbyte_wrbyte by lia. reflexivity.
Qed.
Lemma reads_boolb z : i8 z = true -> reads gbool (wrbyte z) z.
Proof. intros H s. apply i8_ok in H. unfold gbool, lift, rdbool. rewrite rdbyte_wrbyte by lia. reflexivity. Qed.
Lemma reads_str v : okstr v = true -> reads gstr (wrstr v) v.
Proof.
  intros H s. unfold gstr, lift. rewrite rdstr_wrstr; auto. intros b ->. cbn in H.
  apply andb_true_iff in H as [H1 H2]. unfold okcount in H1. apply Z.ltb_lt in H1. split; auto.
  intros H0. rewrite forallb_forall in H2. apply H2 in H0. discriminate H0.
Qed.

Lemma uwrap64_small z : 0 <= z < 2 ^ 32 -> uwrap 64 z = z.
Proof. intros H. apply uwrap_small; lia. Qed.
Lemma bit30_small k : 0 <= k < 2 ^ 30 -> Z.testbit k 30 = false.
Proof.
  intros H. destruct (Z.eq_dec k 0) as [->|]; [apply Z.bits_0|]. apply Z.bits_above_log2; [lia|]. apply Z.log2_lt_pow2; lia.
Qed.
Lemma land_mask_small k : 0 <= k < 2 ^ 30 -> Z.land k Builtinmask = 0.
Proof.
  intros H. unfold Builtinmask. apply Z.bits_inj'. intros n Hn. rewrite Z.land_spec, Z.bits_0, Z.pow2_bits_eqb by lia.
  destruct (Z.eqb_spec 30 n) as [<-|]; [|apply andb_false_r]. rewrite bit30_small by auto. reflexivity.
Qed.
Lemma lor_mask k : 0 <= k < 2 ^ 30 -> Z.lor k Builtinmask = k + 2 ^ 30.
Proof.
  intros H. pose proof (land_mask_small k H) as L.
  rewrite <- (Z.lxor_lor _ _ L), <- (Z.add_nocarry_lxor _ _ L). reflexivity.
Qed.
Lemma mask_bits k : 0 <= k < 2 ^ 30 ->
  Z.land (Z.lor k Builtinmask) Builtinmask = Builtinmask /\ Z.land (Z.lor k Builtinmask) (Z.lnot Builtinmask) = k.
Proof.
  intros H. rewrite !Z.land_lor_distr_l. rewrite land_mask_small by auto. rewrite Z.land_diag, Z.land_lnot_diag.
  split; [reflexivity|]. rewrite Z.lor_0_r. rewrite <- Z.ldiff_land.
  apply Z.bits_inj'. intros n Hn. rewrite Z.ldiff_spec. unfold Builtinmask. rewrite Z.pow2_bits_eqb by lia.
  destruct (Z.eqb_spec 30 n) as [<-|]; cbn [negb]; [|apply andb_true_r].
  rewrite bit30_small by auto. reflexivity.
Qed.

Lemma reads_ref r : okref r = true -> reads rdtype (wrtype r) r.
Proof.
  intros H. unfold rdtype, wrtype.
  set (v := match r with Rnull => 0 | Rbuiltin k => Z.lor k Builtinmask | Rtid t => t end).
  assert (V : 0 <= v < 2 ^ 31).
  { destruct r as [|k|t]; cbn in H; subst v; [lia| |]; apply andb_true_iff in H as [H1 H2].
    - apply Z.leb_le in H1. apply Z.ltb_lt in H2. rewrite lor_mask; lia.
    - apply Z.ltb_lt in H1. apply Z.ltb_lt in H2. lia. }
  assert (R : r = (if uwrap 64 v =? 0 then Rnull
                   else if Z.land (uwrap 64 v) Builtinmask =? 0 then Rtid (uwrap 64 v)
                   else Rbuiltin (Z.land (uwrap 64 v) (Z.lnot Builtinmask)))).
  { rewrite uwrap64_small by lia. clear V. destruct r as [|k|t]; cbn in H; subst v.
    - reflexivity.
    - apply andb_true_iff in H as [H1 H2]. apply Z.leb_le in H1. apply Z.ltb_lt in H2.
      destruct (mask_bits k) as [-> ->]; [lia|]. rewrite lor_mask by lia.
      destruct (Z.eqb_spec (k + 2 ^ 30) 0); [lia|]. reflexivity.
    - apply andb_true_iff in H as [H1 H2]. apply Z.ltb_lt in H1. apply Z.ltb_lt in H2.
      rewrite land_mask_small by lia. destruct (Z.eqb_spec t 0); [lia|]. reflexivity. }
  rewrite R. apply (reads_last gint (fun i => if uwrap 64 i =? 0 then Rnull
      else if Z.land (uwrap 64 i) Builtinmask =? 0 then Rtid (uwrap 64 i)
      else Rbuiltin (Z.land (uwrap 64 i) (Z.lnot Builtinmask)))).
  apply reads_int. unfold i32. apply andb_true_iff. rewrite Z.leb_le, Z.ltb_lt. lia.
Qed.

Lemma reads_optref r : okref r = true ->
  reads (b <- gbool ;; (if b =? 0 then ret Rnull else rdtype))
        (match r with Rnull => wrbool 0 | _ => wrbool 1 ++ wrtype r end) r.
Proof.
  intros H. assert (N : r = Rnull \/ match r with Rnull => wrbool 0 | _ => wrbool 1 ++ wrtype r end = wrbool 1 ++ wrtype r)
    by (destruct r; auto).
  destruct N as [-> | ->].
  - rewrite <- (app_nil_r (wrbool 0)). eapply reads_bind; [apply reads_bool; reflexivity|]. apply reads_ret.
  - eapply reads_bind; [apply reads_bool; reflexivity|]. apply reads_ref; auto.
Qed.
Lemma reads_optstr v : okstr v = true ->
  reads (b <- gbool ;; (if b =? 0 then ret None else gstr))
        (match v with None => wrbool 0 | Some _ => wrbool 1 ++ wrstr v end) v.
Proof.
  intros H. destruct v as [b|].
  - eapply reads_bind; [apply reads_bool; reflexivity|]. apply reads_str; auto.
  - rewrite <- (app_nil_r (wrbool 0)). eapply reads_bind; [apply reads_bool; reflexivity|]. apply reads_ret.
Qed.

Lemma bind_assoc {A B C} (r : rdr A) (k : A -> rdr B) (h : B -> rdr C) s :
  bind (bind r k) h s = bind r (fun a => bind (k a) h) s.
Proof. unfold bind. destruct (r s); reflexivity. Qed.
(* for a reader that first reads two values and then goes on *)
Lemma reads_bind2 {A B C} (r : rdr A) (k : A -> rdr B) (h : B -> rdr C) w w' b c :
  reads (bind r k) w b -> reads (h b) w' c -> reads (bind r (fun a => bind (k a) h)) (w ++ w') c.
Proof. intros H K s. rewrite <- bind_assoc. apply (reads_bind _ h w w' b c H K s). Qed.

Lemma reads_times {A B} (r : rdr B) (w : A -> stream) (g : A -> B) l :
  (forall x, In x l -> reads r (w x) (g x)) -> reads (gtimes (length l) r) (flat_map w l) (map g l).
Proof.
  induction l as [|x l IH]; intros H; cbn [length gtimes flat_map map]; [apply reads_ret|].
  eapply reads_bind; [apply H; left; auto|]. apply reads_last. apply IH. intros y Hy. apply H. right; auto.
Qed.
Lemma reads_list {A B} (r : rdr B) (w : A -> stream) (g : A -> B) l :
  okcount l = true -> (forall x, In x l -> reads r (w x) (g x)) -> reads (glist r) (wlist w l) (map g l).
Proof.
  intros H K. unfold glist, wlist. unfold okcount in H. apply Z.ltb_lt in H.
  eapply reads_bind.
  - apply reads_int. unfold i32. apply andb_true_iff. rewrite Z.leb_le, Z.ltb_lt. lia.
  - cbv beta. destruct (Z.ltb_spec (Z.of_nat (length l)) 0); [lia|]. rewrite Nat2Z.id. apply reads_times; auto.
Qed.
Lemma reads_list_id {A} (r : rdr A) (w : A -> stream) l :
  okcount l = true -> (forall x, In x l -> reads r (w x) x) -> reads (glist r) (wlist w l) l.
Proof. intros H K. rewrite <- (map_id l) at 2. apply (reads_list r w (fun x => x)); auto. Qed.

Lemma reads_traitid u : (0 <=? u) && (u <? 2 ^ 30) = true -> reads rdtrait (wrint u) u.
Proof.
  intros H. apply andb_true_iff in H as [H1 H2]. apply Z.leb_le in H1. apply Z.ltb_lt in H2.
  unfold rdtrait.
  assert (R : u = (if Z.land (uwrap 64 u) Builtinmask =? 0 then uwrap 64 u else Z.land (uwrap 64 u) (Z.lnot Builtinmask))).
  { rewrite uwrap64_small by lia. rewrite land_mask_small by lia. reflexivity. }
  rewrite R at 2.
  apply (reads_last gint (fun i => if Z.land (uwrap 64 i) Builtinmask =? 0 then uwrap 64 i
                                   else Z.land (uwrap 64 i) (Z.lnot Builtinmask))).
  apply reads_int. unfold i32. apply andb_true_iff. rewrite Z.leb_le, Z.ltb_lt. lia.
Qed.
Lemma reads_trait u : (0 <=? u) && (u <? 2 ^ 30) = true -> reads rdtrait (wrtrait u) u.
Proof.
  intros H. unfold wrtrait. destruct (u <? Ntraits) eqn:E; [|apply reads_traitid; auto].
  apply andb_true_iff in H as [H1 H2]. apply Z.leb_le in H1. apply Z.ltb_lt in H2.
  unfold rdtrait. set (v := Z.lor u Builtinmask).
  assert (V : 0 <= v < 2 ^ 31) by (subst v; rewrite lor_mask; lia).
  assert (R : u = (if Z.land (uwrap 64 v) Builtinmask =? 0 then uwrap 64 v else Z.land (uwrap 64 v) (Z.lnot Builtinmask))).
  { rewrite uwrap64_small by lia. subst v. destruct (mask_bits u) as [-> ->]; [lia|]. reflexivity. }
  rewrite R.
  apply (reads_last gint (fun i => if Z.land (uwrap 64 i) Builtinmask =? 0 then uwrap 64 i
                                   else Z.land (uwrap 64 i) (Z.lnot Builtinmask))).
  apply reads_int. unfold i32. apply andb_true_iff. rewrite Z.leb_le, Z.ltb_lt. lia.
Qed.

Lemma through32_spec v : uwrap 64 (swrap 32 v) = through32 v.
Proof.
  unfold through32, swrap, uwrap. change (32 - 1) with 31.
  pose proof (Z.mod_pos_bound v (2 ^ 32) ltac:(lia)) as M.
  pose proof (Z.div_mod v (2 ^ 32) ltac:(lia)) as D.
  set (m := v mod 2 ^ 32) in *. set (q := v / 2 ^ 32) in *.
  assert (E : (v + 2 ^ 31) mod 2 ^ 32 = if 2 ^ 31 <=? m then m - 2 ^ 31 else m + 2 ^ 31).
  { destruct (Z.leb_spec (2 ^ 31) m) as [L|L]; symmetry.
    - apply Z.mod_unique with (q + 1); [left|]; lia.
    - apply Z.mod_unique with q; [left|]; lia. }
  rewrite E. clearbody m q. destruct (Z.leb_spec (2 ^ 31) m) as [L|L]; symmetry.
  - apply Z.mod_unique with (-1); [left|]; lia.
  - apply Z.mod_unique with 0; [left|]; lia.
Qed.

(* lengths: a part is no longer than the whole *)
Lemma len_flat {A} (w : A -> stream) l x : In x l -> (length (w x) <= length (flat_map w l))%nat.
Proof.
  induction l as [|y l IH]; cbn; intros H; [contradiction|]. rewrite app_length. destruct H as [->|H]; [lia|].
  specialize (IH H). lia.
Qed.
Lemma len_wlist {A} (w : A -> stream) l x : In x l -> (length (w x) <= length (wlist w l))%nat.
Proof. intros H. unfold wlist. rewrite app_length. pose proof (len_flat w l x H). lia. Qed.

Ltac ands H := repeat match type of H with (_ && _ = true) => 
   let H' := fresh H in apply andb_true_iff in H; destruct H as [H H'] end.
Ltac allands := repeat match goal with H : _ && _ = true |- _ => apply andb_true_iff in H; destruct H end.

Section RT.
(* which literals are allowed, and what they become *)
Variable any : Z -> bool.
Variable becomes : Z -> Z.
Hypothesis becomes_ok : forall v, 0 <= v < 2 ^ 64 -> any v = true -> through32 v = becomes v.

Notation im := (im_node becomes hidden_only).
Notation ims := (im_sym becomes hidden_only).
Notation imt := (im_stab becomes hidden_only).

Lemma reads_scopety r : okref r = true -> isbuiltin r = true -> reads rdscopety (wrtype r) r.
Proof.
  intros H B. unfold rdscopety. rewrite <- (app_nil_r (wrtype r)). eapply reads_bind; [apply reads_ref; auto|].
  cbv beta. destruct r; try discriminate B. apply reads_ret.
Qed.

Lemma reads_wrap64 v : reads (v <- gint ;; ret (Lint (uwrap 64 v))) (wrint v) (Lint (through32 v)).
Proof.
  rewrite <- through32_spec. apply (reads_last gint (fun v => Lint (uwrap 64 v))). apply reads_int_any.
Qed.
Lemma reads_chr v : 0 <= v < 2 ^ 32 -> reads (v <- gint ;; ret (Lchr (uwrap 32 v))) (wrint v) (Lchr v).
Proof.
  intros H. replace (Lchr v) with (Lchr (uwrap 32 (swrap 32 v))).
  - apply (reads_last gint (fun v => Lchr (uwrap 32 v))). apply reads_int_any.
  - f_equal. rewrite uwrap_swrap by lia. apply uwrap_small; lia.
Qed.

Ltac step lem := eapply reads_bind; [apply lem; auto|]; cbv beta.

Ltac nd IH := eapply reads_bind; [apply IH; auto; lia|]; cbv beta.

Lemma roundtrip f :
  (forall n, rep_node any n = true -> (length (pickle n) < f)%nat -> reads (unpickle_f f) (pickle n) (im n)) /\
  (forall y, rep_sym any y = true -> (length (wrsym y) < f)%nat -> reads (rdsym_f f) (wrsym y) (ims y)) /\
  (forall t, rep_stab any t = true -> (length (wrstab t) < f)%nat -> reads (rdstab_f f) (wrstab t) (imt t)).
Proof.
  induction f as [|f (IHn & IHy & IHt)]; [repeat split; intros; lia|].
  assert (L : forall l : list node, okcount l = true -> forallb (rep_node any) l = true ->
     (length (wlist pickle l) < f)%nat -> reads (glist (unpickle_f f)) (wlist pickle l) (map im l)).
  { intros l C R Hl. apply reads_list; auto. intros x Hx. rewrite forallb_forall in R. apply IHn; auto.
    pose proof (len_wlist pickle l x Hx). lia. }
  assert (LY : forall l : list sym, okcount l = true -> forallb (rep_sym any) l = true ->
     (length (wlist wrsym l) < f)%nat -> reads (glist (rdsym_f f)) (wlist wrsym l) (map ims l)).
  { intros l C R Hl. apply reads_list; auto. intros x Hx. rewrite forallb_forall in R. apply IHy; auto.
    pose proof (len_wlist wrsym l x Hx). lia. }
  split; [|split].
  - intros n R Hl.
    destruct n as [|line op did ty param c idx args|line ns name|line l name|line ty nelt v|line a b c d|line a b c|line v ms
                  |line p b|line a b c|line st ss|line nm ty c g e r p init|line ty st args body|line tn tr ty aux ds];
      cbn [rep_node rep_lit rep_sym rep_stab] in R; cbn [pickle wrlit wrsym wrstab] in Hl |- *; cbn [unpickle_f rdsym_f rdstab_f im_node im_lit im_sym im_stab]; allands;
      rewrite ?app_length in Hl; cbn [length wrbyte] in Hl.
    + rewrite <- (app_nil_r (wrbyte 0)). step (reads_byte 0). apply reads_ret.
    + step (reads_byte 8). cbn [Z.eqb Pos.eqb]. step (reads_int line).
      step (reads_byte op). step (reads_ref ty). eapply reads_bind2; [apply reads_optref; auto|]. cbv beta.
      step (reads_bool c). nd IHn. apply reads_last. apply L; auto; lia.
    + step (reads_byte 10). cbn [Z.eqb Pos.eqb]. step (reads_int line).
      eapply reads_bind2; [apply reads_optstr; auto|]. cbv beta. apply reads_last. apply reads_str; auto.
    + step (reads_byte 7). cbn [Z.eqb Pos.eqb]. step (reads_int line). step (reads_bool l). apply reads_last.
      apply reads_str; auto.
    + step (reads_byte 9). cbn [Z.eqb Pos.eqb]. step (reads_int line).
      eapply reads_bind; [apply reads_byte; destruct v; reflexivity|]. cbv beta.
      step (reads_ref ty). step (reads_int nelt).
      { match goal with N : nat31 nelt = true |- _ => apply nat31_ok in N end. unfold i32. apply andb_true_iff. rewrite Z.leb_le, Z.ltb_lt. lia. }
      apply reads_last. destruct v as [v|v|v|v|v|v|v|]; cbn [Z.eqb Pos.eqb wrlit im_lit]; cbn [rep_node rep_lit] in *; allands.
      * apply reads_chr. rewrite Z.leb_le, Z.ltb_lt in *. lia.
      * apply reads_last. apply reads_bool; auto.
      * rewrite <- becomes_ok; auto; [apply reads_wrap64|]. rewrite Z.leb_le, Z.ltb_lt in *. lia.
      * apply (reads_last (lift rdflt) Lflt). intros s. unfold lift. rewrite rdflt_wrflt; auto.
        rewrite Z.leb_le, Z.ltb_lt in *. lia.
      * apply (reads_last (lift rdlenstr) Lstr). intros s. unfold lift. rewrite rdlenstr_wrlenstr; auto.
        apply Z.ltb_lt. auto.
      * apply reads_last. apply IHn; auto. cbn [wrlit] in Hl. lia.
      * apply reads_last. apply reads_str; auto.
      * apply reads_ret.
    + step (reads_byte 3). cbn [Z.eqb Pos.eqb]. step (reads_int line). nd IHn. nd IHn. nd IHn. apply reads_last. apply IHn; auto; lia.
    + step (reads_byte 4). cbn [Z.eqb Pos.eqb]. step (reads_int line). nd IHn. nd IHn. apply reads_last. apply IHn; auto; lia.
    + step (reads_byte 5). cbn [Z.eqb Pos.eqb]. step (reads_int line). nd IHn. apply reads_last. apply L; auto; lia.
    + step (reads_byte 6). cbn [Z.eqb Pos.eqb]. step (reads_int line). nd IHn. apply reads_last. apply IHn; auto; lia.
    + step (reads_byte 2). cbn [Z.eqb Pos.eqb]. step (reads_int line). nd IHn. nd IHn. apply reads_last. apply IHn; auto; lia.
    + step (reads_byte 1). cbn [Z.eqb Pos.eqb]. step (reads_int line). nd IHt. apply reads_last. apply L; auto; lia.
    + step (reads_byte 11). cbn [Z.eqb Pos.eqb]. step (reads_int line). nd IHn. step (reads_ref ty).
      step (reads_bool c). step (reads_bool g). step (reads_bool e). step (reads_bool r). step (reads_bool p).
      apply reads_last. apply IHn; auto; lia.
    + step (reads_byte 12). cbn [Z.eqb Pos.eqb]. step (reads_int line). step (reads_ref ty). nd IHt.
      eapply reads_bind; [apply L; auto; lia|]. cbv beta. apply reads_last. apply IHn; auto; lia.
    + step (reads_byte 13). cbn [Z.eqb Pos.eqb]. step (reads_int line). nd IHn.
      eapply reads_bind; [apply reads_traitid; apply andb_true_iff; auto|]. cbv beta.
      step (reads_ref ty).
      eapply reads_bind; [apply reads_list_id; auto; intros x Hx; apply reads_ref|].
      { match goal with F : forallb okref aux = true |- _ => rewrite forallb_forall in F; auto end. }
      cbv beta. apply reads_last. apply LY; auto; lia.
  - intros y R Hl. destruct y as [line nm ty v c g e p r x i fi init].
    cbn [rep_node rep_lit rep_sym rep_stab] in R; cbn [pickle wrlit wrsym wrstab] in Hl |- *; cbn [unpickle_f rdsym_f rdstab_f im_node im_lit im_sym im_stab]; allands. rewrite ?app_length in Hl.
    pose proof (be32_len line) as E4. unfold wrint in Hl at 1. rewrite E4 in Hl.
    step (reads_int line). nd IHn. step (reads_ref ty). step (reads_int v).
    step (reads_bool c). step (reads_bool g). step (reads_bool e). step (reads_bool p). step (reads_bool r).
    step (reads_bool x). step (reads_boolb i). step (reads_boolb fi).
    replace (if v =? Vishidden then Vishidden else 0) with (hidden_only v) by reflexivity.
    apply (reads_last _ (fun init => Sym line (im nm) ty (hidden_only v) c g e p r x i fi init)).
    destruct (x =? 0); [apply reads_ret|]. apply IHn; auto; lia.
  - intros st R Hl. destruct st as [nm ds ts].
    cbn [rep_node rep_lit rep_sym rep_stab] in R; cbn [pickle wrlit wrsym wrstab] in Hl |- *; cbn [unpickle_f rdsym_f rdstab_f im_node im_lit im_sym im_stab]; allands. rewrite ?app_length in Hl.
    assert (1 <= length (wrstr nm))%nat by (unfold wrstr, wrint; destruct nm; rewrite ?app_length, be32_len; lia).
    step (reads_str nm). eapply reads_bind; [apply LY; auto; lia|]. cbv beta.
    apply reads_last. apply (reads_list _ (fun e => pickle (fst e) ++ wrtype (snd e)) (fun e => (im (fst e), snd e))); auto.
    intros [n r] Hx. cbn [fst snd].
    match goal with F : forallb _ ts = true |- _ => rewrite forallb_forall in F; specialize (F _ Hx); cbn [fst snd] in F end.
    allands. pose proof (len_wlist (fun e : node * ref => pickle (fst e) ++ wrtype (snd e)) ts _ Hx) as Lx.
    cbn [fst snd] in Lx. rewrite app_length in Lx.
    nd IHn. apply reads_last. apply reads_scopety; auto.
Qed.

Lemma reads_node n : rep_node any n = true -> reads unpickle (pickle n) (im n).
Proof.
  intros H s. unfold unpickle. apply (proj1 (roundtrip _)); auto. rewrite app_length. lia.
Qed.
Lemma reads_sym y : rep_sym any y = true -> reads rdsym (wrsym y) (ims y).
Proof.
  intros H s. unfold rdsym. apply (proj1 (proj2 (roundtrip _))); auto. rewrite app_length. lia.
Qed.
Lemma reads_nodes l : okcount l = true -> forallb (rep_node any) l = true -> reads (glist unpickle) (wlist pickle l) (map im l).
Proof. intros H K. rewrite forallb_forall in K. apply reads_list; auto. intros x Hx. apply reads_node; auto. Qed.
Lemma reads_refs l : okcount l = true -> forallb okref l = true -> reads (glist rdtype) (wlist wrtype l) l.
Proof. intros H K. rewrite forallb_forall in K. apply reads_list_id; auto. intros x Hx. apply reads_ref; auto. Qed.

Notation imu := (im_ucon becomes hidden_only).
Notation imp := (im_spec becomes hidden_only).
Notation imty := (im_ty becomes hidden_only).
Notation imtr := (im_trait becomes hidden_only).
Notation imi := (im_item becomes hidden_only).

Lemma nat31_i32 z : nat31 z = true -> i32 z = true.
Proof. intros H. apply nat31_ok in H. unfold i32. apply andb_true_iff. rewrite Z.leb_le, Z.ltb_lt. lia. Qed.

Lemma reads_ucon u : rep_ucon any u = true -> reads rducon (wrucon u) (imu u).
Proof.
  intros H. unfold rep_ucon in H. allands. unfold rducon, wrucon.
  step (reads_int (u_line u)). step (reads_int (u_id u)); [apply nat31_i32; auto|]. step (reads_bool (u_synth u)).
  step (reads_node (u_name u)).
  rewrite <- (app_nil_r (match u_ety u with Rnull => _ | _ => _ end)).
  eapply reads_bind2; [apply reads_optref; auto|]. cbv beta.
  replace (uwrap 64 (u_id u)) with (u_id u); [apply reads_ret|].
  match goal with N : nat31 _ = true |- _ => apply nat31_ok in N end. symmetry. apply uwrap64_small. lia.
Qed.

Lemma reads_spec p : rep_spec any p = true -> reads rdspec (wrspec p) (imp p).
Proof.
  intros H. unfold rep_spec in H. allands. unfold rdspec, wrspec.
  step (reads_nodes (ts_traits p)). step (reads_ref (ts_param p)).
  rewrite <- (app_nil_r (match ts_aux p with Rnull => _ | _ => _ end)).
  eapply reads_bind2; [apply reads_optref; auto|]. cbv beta. apply reads_ret.
Qed.

Lemma reads_sub0 n r : (1 <=? n) = true -> okref r = true -> reads (rdsub0 n) (wrtype r) r.
Proof.
  intros H K. apply Z.leb_le in H. unfold rdsub0. destruct (Z.ltb_spec n 1); [lia|]. apply reads_ref; auto.
Qed.

Lemma i8_kind b : (match b with Tsubs k _ => othertype k | _ => true end) = true -> i8 (tkind b) = true.
Proof. destruct b; cbn; intros H; try reflexivity. unfold othertype in H. allands. auto. Qed.

Lemma reads_ty t : rep_ty any t = true -> reads tyunpickle (typickle t) (imty t).
Proof.
  intros H. unfold rep_ty in H. allands. unfold tyunpickle, typickle.
  step (reads_byte (tkind (t_body t))).
  { apply i8_kind. destruct (t_body t); auto. allands; auto. }
  step (reads_byte (t_vis t)).
  eapply reads_bind.
  { apply (reads_list rdspec wrspec imp); auto. intros x Hx.
    match goal with F : forallb _ (t_spec t) = true |- _ => rewrite forallb_forall in F; specialize (F _ Hx) end.
    apply reads_spec; auto. }
  cbv beta. step (reads_ref (t_seqaux t)). step (reads_int (t_nsub t)); [apply nat31_i32; auto|].
  unfold im_ty. change (if t_vis t =? Vishidden then Vishidden else 0) with (hidden_only (t_vis t)).
  apply (reads_last _ (fun b => {| t_vis := hidden_only (t_vis t); t_spec := map imp (t_spec t); t_seqaux := t_seqaux t;
                                   t_nsub := t_nsub t; t_body := b |})).
  destruct (t_body t) as [nm|need nm|ds|us|s sz|s|nm args s|nm ps s|k ss]; cbn [tkind im_body]; cbn [Z.eqb Pos.eqb]; allands.
  - apply (reads_last unpickle Tunres). apply reads_node; auto.
  - eapply reads_bind; [apply reads_list_id; auto|].
    { intros x Hx. match goal with F : forallb _ need = true |- _ => rewrite forallb_forall in F; specialize (F _ Hx) end.
      apply reads_trait; auto. }
    cbv beta. apply reads_last. apply reads_str; auto.
  - apply (reads_last _ Tstruct). apply reads_nodes; auto.
  - apply (reads_last _ Tunion). apply reads_list; auto. intros x Hx.
    match goal with F : forallb _ us = true |- _ => rewrite forallb_forall in F; specialize (F _ Hx) end.
    apply reads_ucon; auto.
  - step (reads_sub0 (t_nsub t) s). apply reads_last. apply reads_node; auto.
  - apply (reads_last _ Tslice). apply reads_sub0; auto.
  - step (reads_node nm). step (reads_refs args). apply reads_last. apply reads_sub0; auto.
  - step (reads_node nm). step (reads_refs ps). apply reads_last. apply reads_sub0; auto.
  - match goal with O : othertype k = true |- _ => unfold othertype in O; allands end.
    match goal with O : negb (existsb _ _) = true |- _ => apply negb_true_iff in O; cbn [existsb] in O;
      repeat (apply orb_false_iff in O; let O' := fresh "N" in destruct O as [O' O]); rewrite ?N, ?N0, ?N1, ?N2, ?N3, ?N4, ?N5, ?N6, ?N7 end.
    match goal with E : (t_nsub t =? _) = true |- _ => apply Z.eqb_eq in E; rewrite E end.
    destruct (Z.ltb_spec (Z.of_nat (length ss)) 0); [lia|]. rewrite Nat2Z.id.
    apply (reads_last _ (Tsubs k)). rewrite <- (map_id ss) at 3. apply (reads_times rdtype wrtype (fun x => x)).
    intros x Hx. match goal with F : forallb okref ss = true |- _ => rewrite forallb_forall in F; specialize (F _ Hx) end.
    apply reads_ref; auto.
Qed.

Lemma reads_traitrec r : rep_trait any r = true -> reads traitunpickle (traitpickle r) (imtr r).
Proof.
  intros H. unfold rep_trait in H. allands. unfold traitunpickle, traitpickle.
  step (reads_int (r_uid r)). step (reads_int (r_vis r)). step (reads_node (r_name r)). step (reads_ty (r_param r)).
  step (reads_refs (r_aux r)). unfold im_trait.
  change (if r_vis r =? Vishidden then Vishidden else 0) with (hidden_only (r_vis r)).
  apply (reads_last _ (fun ps => {| r_uid := r_uid r; r_vis := hidden_only (r_vis r); r_name := im (r_name r);
                                    r_param := imty (r_param r); r_aux := r_aux r; r_proto := ps |})).
  apply reads_list; auto. intros x Hx.
  match goal with F : forallb _ (r_proto r) = true |- _ => rewrite forallb_forall in F; specialize (F _ Hx) end.
  apply reads_sym; auto.
Qed.

Lemma reads_item i : rep_item any i = true ->
  exists c w, writem i = c :: w /\ reads (rditem c) w (Some (imi i)).
Proof.
  intros H. destruct i as [s|s|s|tid t|r|n|y|n|n]; cbn [rep_item] in H; cbn [writem]; allands; cbn [im_item];
    try destruct (sgeneric y =? 0);
    (eexists _, _; split; [cbv [wrbyte]; cbn [app]; reflexivity|]; unfold rditem; change (uwrap 8 76) with 76; change (uwrap 8 88) with 88;
         change (uwrap 8 70) with 70; change (uwrap 8 84) with 84; change (uwrap 8 82) with 82; change (uwrap 8 73) with 73;
         change (uwrap 8 83) with 83; change (uwrap 8 68) with 68; change (uwrap 8 71) with 71; change (uwrap 8 69) with 69; cbn [Z.eqb Pos.eqb orb]).
  - apply (reads_last _ (fun s => Some (Ilib s))). apply reads_str; auto.
  - apply (reads_last _ (fun s => Some (Iext s))). apply reads_str; auto.
  - apply (reads_last _ (fun s => Some (Ifile s))). apply reads_str; auto.
  - step (reads_int tid). apply (reads_last _ (fun t => Some (Itype tid t))). apply reads_ty; auto.
  - apply (reads_last _ (fun r => Some (Itrait r))). apply reads_traitrec; auto.
  - apply (reads_last _ (fun n => Some (Iimpl n))). apply reads_node; auto.
  - apply (reads_last _ (fun y => Some (Idecl y))). apply reads_sym; auto.
  - apply (reads_last _ (fun y => Some (Idecl y))). apply reads_sym; auto.
  - apply (reads_last _ (fun n => Some (Iinit n))). apply reads_node; auto.
  - apply (reads_last _ (fun n => Some (Ifini n))). apply reads_node; auto.
Qed.

Lemma reads_items is f : forallb (rep_item any) is = true -> (length (flat_map writem is) < f)%nat ->
  rditems f (flat_map writem is) = RVal (map imi is) [].
Proof.
  revert f. induction is as [|i is IH]; intros f R Hf; (destruct f as [|f]; [lia|]); cbn [flat_map rditems map]; [reflexivity|].
  cbn [forallb] in R. allands. destruct (reads_item i) as (c & w & E & Rd); auto.
  cbn [flat_map] in Hf. rewrite E in Hf |- *. cbn [app length] in Hf |- *. rewrite app_length in Hf. rewrite Rd.
  rewrite IH; auto. lia.
Qed.

Lemma reads_use pkg is : okstr pkg = true -> forallb (rep_item any) is = true ->
  rduse (wruse pkg is) = RVal (Some (pkg, map imi is)) [].
Proof.
  intros P R. unfold rduse, wruse. change (wrbyte 85) with [85]. cbn [app]. change (negb (85 =? 85)) with false. cbv iota.
  assert (E1 := reads_int Abiversion eq_refl (wrstr pkg ++ flat_map writem is)). unfold bind at 1. rewrite E1.
  change (negb (Abiversion =? Abiversion)) with false. cbv iota. unfold bind. rewrite (reads_str pkg P).
  rewrite reads_items; auto.
Qed.
End RT.
