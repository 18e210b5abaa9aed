-Q theories Verif
theories/Alloc_Big.v
theories/Alloc_Free.v
theories/Alloc_Model.v
theories/Alloc_Proofs.v
theories/Alloc_Props.v
theories/Alloc_Spec.v
theories/Base.v
theories/Bigint_Model.v
theories/Bigint_Proofs.v
theories/Bigint_Proofs2.v
theories/Bigint_Proofs3.v
theories/Bigint_Proofs4.v
theories/Bigint_Props.v
theories/Bigint_Spec.v
theories/Bio_Calls.v
theories/Bio_Delim.v
theories/Bio_Line.v
theories/Bio_Model.v
theories/Bio_Proofs.v
theories/Bio_Props.v
theories/Bio_Read.v
theories/Bio_Reads.v
theories/Bio_Seek.v
theories/Bio_Spec.v
theories/Bio_Write.v
theories/Blob_Model.v
theories/Blob_Proofs.v
theories/Blob_Props.v
theories/Blob_Spec.v
theories/CBitset_Model.v
theories/CBitset_Proofs.v
theories/CBitset_Props.v
theories/CBitset_Spec.v
theories/CHtab_Model.v
theories/CHtab_Proofs.v
theories/CHtab_Props.v
theories/CHtab_Spec.v
theories/CPack_Model.v
theories/CPack_Proofs.v
theories/CPack_Props.v
theories/CUtil_Model.v
theories/CUtil_Proofs.v
theories/CUtil_Props.v
theories/Call_Model.v
theories/Call_Proofs.v
theories/Call_Props.v
theories/Call_Spec.v
theories/Cfg_Build.v
theories/Cfg_Check.v
theories/Cfg_Flat.v
theories/Cfg_Model.v
theories/Cfg_Props.v
theories/Cfg_Reach.v
theories/Cfg_Ret.v
theories/Cfg_Spec.v
theories/Chacha_Model.v
theories/Chacha_Props.v
theories/Chacha_Spec.v
theories/Conc.v
theories/Ct_Model.v
theories/Ct_Props.v
theories/Date_Model.v
theories/Date_Proofs.v
theories/Date_Props.v
theories/Date_Spec.v
theories/Date_Text.v
theories/Dir_Model.v
theories/Dir_Props.v
theories/Endian_Model.v
theories/Endian_Proofs.v
theories/Endian_Props.v
theories/Endian_Spec.v
theories/Esc_Model.v
theories/Esc_Props.v
theories/Esc_Spec.v
theories/Export_Model.v
theories/Export_Proofs.v
theories/Export_Props.v
theories/Export_Spec.v
theories/FMutex_Model.v
theories/FMutex_Proofs.v
theories/FMutex_Props.v
theories/FRw_Model.v
theories/FRw_Proofs.v
theories/Flate_Bits.v
theories/Flate_Block.v
theories/Flate_Dyn.v
theories/Flate_Huff.v
theories/Flate_Model.v
theories/Flate_Props.v
theories/Flate_Spec.v
theories/Flate_Top.v
theories/Fold_Model.v
theories/Fold_Proofs.v
theories/Fold_Props.v
theories/Fold_Spec.v
theories/Hash_Keccak.v
theories/Hash_Model.v
theories/Hash_Props.v
theories/Hash_Sha.v
theories/Hash_Sha1.v
theories/Hash_Sha512.v
theories/Hash_Spec.v
theories/Hash_Steps.v
theories/Hash_Stream.v
theories/IntFmt_Model.v
theories/IntFmt_Proofs.v
theories/IntFmt_Props.v
theories/IntFmt_Spec.v
theories/Ip_Model.v
theories/Ip_Props.v
theories/Json_Basic.v
theories/Json_Complete.v
theories/Json_Model.v
theories/Json_Props.v
theories/Json_Sound.v
theories/Json_Spec.v
theories/Layout_Model.v
theories/Layout_Proofs.v
theories/Layout_Props.v
theories/Layout_Spec.v
theories/ListX.v
theories/Match_Emit.v
theories/Match_EmitProofs.v
theories/Match_Exh.v
theories/Match_Full.v
theories/Match_Model.v
theories/Match_Proofs.v
theories/Match_Props.v
theories/Match_Rows.v
theories/Match_Spec.v
theories/Match_Top.v
theories/Mutex_Spec.v
theories/OpenAddr_Model.v
theories/OpenAddr_Proofs.v
theories/Path_Model.v
theories/Path_Props.v
theories/Path_Spec.v
theories/Queue_Live.v
theories/Queue_Model.v
theories/Queue_Proofs.v
theories/Queue_Props.v
theories/Queue_Spec.v
theories/Ra_Build.v
theories/Ra_Core.v
theories/Ra_Emit.v
theories/Ra_Final.v
theories/Ra_Live.v
theories/Ra_Model.v
theories/Ra_Paint.v
theories/Ra_Props.v
theories/Ra_Sem.v
theories/Ra_SemProps.v
theories/Ra_SemSpec.v
theories/Ra_Spec.v
theories/Ra_Steps.v
theories/Ra_Tables.v
theories/Ra_Wl.v
theories/Rand_Model.v
theories/Rand_Props.v
theories/Rand_Spec.v
theories/Regex_Class.v
theories/Regex_Comp.v
theories/Regex_Gen.v
theories/Regex_Model.v
theories/Regex_Props.v
theories/Regex_Rng.v
theories/Regex_Run.v
theories/Regex_Spec.v
theories/Regex_Sub.v
theories/Regex_Term.v
theories/Rw_Props.v
theories/Rw_Spec.v
theories/SBitset_Model.v
theories/SBitset_Proofs.v
theories/SBitset_Props.v
theories/SBitset_Spec.v
theories/SHtab_Model.v
theories/SHtab_Proofs.v
theories/SHtab_Props.v
theories/SHtab_Spec.v
theories/SMutex_Model.v
theories/SMutex_Props.v
theories/SRw_Model.v
theories/SRw_Proofs.v
theories/Sem_Model.v
theories/Sem_Proofs.v
theories/Sem_Props.v
theories/Sem_Spec.v
theories/Sort_Model.v
theories/Sort_Proofs.v
theories/Sort_Props.v
theories/Sort_Spec.v
theories/Str_Model.v
theories/Str_Proofs.v
theories/Str_Props.v
theories/Str_Spec.v
theories/Tok_Lex.v
theories/Tok_Model.v
theories/Tok_Num.v
theories/Tok_Oper.v
theories/Tok_Proofs.v
theories/Tok_Props.v
theories/Tok_Spec.v
theories/Tok_Str.v
theories/Tok_Word.v
theories/Unify_Cache.v
theories/Unify_Model.v
theories/Unify_Occurs.v
theories/Unify_Proofs.v
theories/Unify_Props.v
theories/Unify_Same.v
theories/Unify_Sol.v
theories/Unify_Spec.v
theories/Unify_Tyeq.v
theories/Use_Model.v
theories/Use_Proofs.v
theories/Use_Props.v
theories/Use_Spec.v
theories/Utf_Model.v
theories/Utf_Proofs.v
theories/Utf_Props.v
theories/Utf_Spec.v
theories/Wg_Model.v
theories/Wg_Props.v
theories/Wg_Spec.v
theories/Word.v
