(** The batches of ord_neu.rs can be read. *)
From Verif Require Export Spec.ReadableSpec Proofs.SpineInstP.
From Verif Require Import Base.Arrays Base.Collections Spec.BatchSpec Model.OrdNeuM Proofs.TrieP Proofs.OrdNeuP Proofs.OrdKeyP Props.OrdNeuProps.

Lemma ov_readable {K V T R} {OK : Ord K} {OV : Ord V} {TT : Time T} {DR : Diff R} {OR : Ord R} :
  readable (K:=K) (V:=V) (T:=T) (R:=R) ov_batch_ops ov_contents ov_laws ov_ops ovc_new.
Proof.
  intros b Hb. destruct (ov_batch_holds b Hb) as (tr & H). rewrite (ov_contents_holds b tr H). split.
  - apply ov_holds_reads; auto.
  - apply wf_trie_consolidated, (oh_wf _ _ H).
Qed.
Lemma ok_readable {K T R} {OK : Ord K} {TT : Time T} {DR : Diff R} {OR : Ord R} :
  readable (K:=K) (V:=unit) (T:=T) (R:=R) ok_batch_ops ok_contents ok_laws ok_ops okc_new.
Proof.
  intros b Hb. destruct (ok_batch_holds b Hb) as (g & H). rewrite (ok_contents_holds b g H). split.
  - apply ok_holds_reads; auto.
  - apply wf_trie_consolidated, (kh_wf _ _ H).
Qed.
