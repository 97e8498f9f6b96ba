(** Model of interactive/src/explain/mod.rs, lines 26-180: cloning a program's scopes into a scope under
    construction, where nested scopes also export what they compute inside.  [None] is a panic. *)
From Verif Require Export Model.ScopeIrM.
From Coq Require Import DecimalString.
Local Open Scope nat_scope.

(* explain/mod.rs:32-42 *)
Inductive Site := SiteOp (i : nat) | SiteVar (i : nat).
Record Addr := { ad_path : list nat; ad_site : Site }.

(* 68-75 map_ref.  The tables hold the items cloned so far instead of [None] for the others: to look at
   another panics either way. *)
Definition map_ref (locals : list (option Ref)) (subs : list (option nat)) (import_map : list Ref) (var_base : nat) (r : Ref) : option Ref :=
  match r with
  | RLocal i => o <- nth_error locals i; o
  | RImport k => nth_error import_map k
  | RVar v => Some (RVar (var_base + v))
  | RChildExport i j => o <- nth_error subs i; i' <- o; Some (RChildExport i' j)
  end.

Definition push_item (s : Scope) (it : Item) : Scope :=
  MkScope (sc_name s) (sc_imports s) (sc_vars s) (sc_items s ++ [it]) (sc_binds s) (sc_exports s).
Definition push_export (s : Scope) (e : Export) : Scope :=
  MkScope (sc_name s) (sc_imports s) (sc_vars s) (sc_items s) (sc_binds s) (sc_exports s ++ [e]).
(* 147: format!("$host:{}", export_idx) *)
Definition host_name (n : nat) : string := ("$host:" ++ NilEmpty.string_of_uint (Nat.to_uint n))%string.

(* 139-151 *)
Fixpoint lift_sites (sub_idx : nat) (child_visible : list (Addr * Ref)) (child_out : Scope) : Scope * list (Addr * Ref) :=
  match child_visible with
  | [] => (child_out, [])
  | (a, vref) :: rest =>
      let lift_idx := length (sc_items child_out) in
      let export_idx := length (sc_exports child_out) in
      let child_out := push_item child_out (IOp (NLinear vref [LLiftIter])) in
      let child_out := push_export child_out {| ex_name := host_name export_idx; ex_value := RLocal lift_idx |} in
      let (child_out, visible) := lift_sites sub_idx rest child_out in
      (child_out, (a, RChildExport sub_idx export_idx) :: visible)
  end.

(* 118-124: a nested scope's imports come from its parent *)
Definition clone_import (f : Ref -> option Ref) (im : Import) : option Import :=
  match im_from im with
  | SParent r => r' <- f r; Some {| im_name := im_name im; im_from := SParent r' |}
  | _ => None
  end.

(* 88-180 clone_rec.  [clone_node], 77-86, is [node_each]. *)
Fixpoint clone_rec (orig out : Scope) (import_map : list Ref) (path : list nat) {struct orig} : option (Scope * list (Addr * Ref)) :=
  match orig with
  | MkScope _ _ vs its bs es =>
      let var_base := length (sc_vars out) in
      let visible := map (fun vi => ({| ad_path := path; ad_site := SiteVar vi |}, RVar (var_base + vi))) (seq 0 (length vs)) in
      let out := MkScope (sc_name out) (sc_imports out) (sc_vars out ++ vs) (sc_items out) (sc_binds out) (sc_exports out) in
      ' cloned <- (fix go (its : list Item) (locals : list (option Ref)) (subs : list (option nat)) (out : Scope) (visible : list (Addr * Ref)) {struct its} :=
         match its with
         | [] => Some (locals, subs, out, visible)
         | IOp node :: its =>
             let m := map_ref locals subs import_map var_base in
             node' <- node_each m node;
             let out_idx := length (sc_items out) in
             vis <- match node with NArrange input => m input | _ => Some (RLocal out_idx) end;
             go its (locals ++ [Some (RLocal out_idx)]) (subs ++ [None]) (push_item out (IOp node'))
               (visible ++ [({| ad_path := path; ad_site := SiteOp (length locals) |}, vis)])
         | ISub child :: its =>
             let m := map_ref locals subs import_map var_base in
             cloned_imports <- mapO (clone_import m) (sc_imports child);
             let ident := map RImport (seq 0 (length (sc_imports child))) in
             ' inner <- clone_rec child (MkScope (sc_name child) cloned_imports [] [] [] []) ident (path ++ [length locals]);
             let sub_idx := length (sc_items out) in
             let (child_out, vis) := lift_sites sub_idx (snd inner) (fst inner) in
             go its (locals ++ [None]) (subs ++ [Some sub_idx]) (push_item out (ISub child_out)) (visible ++ vis)
         end) its [] [] out visible;
      let '(locals, subs, out, visible) := cloned in
      let m := map_ref locals subs import_map var_base in
      binds <- mapO (fun b => v <- m (bi_value b); Some {| bi_var := var_base + bi_var b; bi_value := v |}) bs;
      exports <- mapO (fun e => v <- m (ex_value e); Some {| ex_name := ex_name e; ex_value := v |}) es;
      Some (MkScope (sc_name out) (sc_imports out) (sc_vars out) (sc_items out) (sc_binds out ++ binds) (sc_exports out ++ exports), visible)
  end.

(* 51-53 *)
Definition clone_into (orig out : Scope) (import_map : list Ref) : option (Scope * list (Addr * Ref)) := clone_rec orig out import_map [].
(* 58-66; the visible references are dropped *)
Definition clone_identity (p : Scope) : option Scope :=
  let out := MkScope (sc_name p) (sc_imports p) [] [] [] [] in
  r <- clone_into p out (map RImport (seq 0 (length (sc_imports p))));
  Some (fst r).
