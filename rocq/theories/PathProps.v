(** C47: qualified names. *)
From Verif Require Import PathProofs.
Open Scope string_scope. Open Scope list_scope.

(** Joining a name onto a path can be undone. *)
Theorem joined_path_splits_back : forall p n, name_ok n ->
  parent_path (join_path p n) = Some p /\ last_segment_of (join_path p n) = n.
Proof. exact join_split. Qed.
Print Assumptions joined_path_splits_back.

(** Splitting any text can be undone, and a text is simple exactly when it does not split. *)
Theorem split_path_joins_back : forall s,
  (is_simple s = true -> parent_path s = None /\ last_segment_of s = s) /\
  (is_simple s = false -> exists p, parent_path s = Some p /\ s = join_path p (last_segment_of s)).
Proof. exact split_join. Qed.
Print Assumptions split_path_joins_back.

Theorem simple_means_no_separator : forall s, is_simple s = true <-> simple_text s.
Proof. exact is_simple_ok. Qed.
Print Assumptions simple_means_no_separator.

(** Qualifying a name leaves the shared buffer as it was, and so does a push undone by
    truncating to the returned length. *)
Theorem prefix_buffer_restored : forall p n,
  truncate (fst (push_prefix p n)) (snd (push_prefix p n)) = p /\ snd (qualified_symbol p n) = p.
Proof. exact buffers_restored. Qed.
Print Assumptions prefix_buffer_restored.

(** The qualified name of a path is its segments with separators between them. *)
Theorem qualified_path_is_joined : forall path, path <> [] -> (forall s, In s path -> s <> EmptyString) ->
  qualified_path_symbol path = Some (path_text path).
Proof. exact qualified_path_text. Qed.
Print Assumptions qualified_path_is_joined.

(** Different paths have different qualified names. *)
Theorem qualified_paths_distinct : forall l m, l <> [] -> m <> [] ->
  (forall s, In s l -> name_ok s) -> (forall s, In s m -> name_ok s) ->
  qualified_path_symbol l = qualified_path_symbol m -> l = m.
Proof. exact qualified_injective. Qed.
Print Assumptions qualified_paths_distinct.

Example path_hypotheses_hold :
  name_ok "Reader" /\ qualified_path_symbol ["std"; "io"; "Reader"] = Some "std::io::Reader" /\
  parent_path "std::io::Reader" = Some "std::io" /\ last_segment_of "std::io::Reader" = "Reader" /\
  is_simple "std::io" = false /\ parent_path ":::x" = Some ":" /\
  push_prefix "std" "io" = ("std::io", 3) /\ qualified_symbol "std" "io" = ("std::io", "std").
Proof.
  split; [split; [discriminate|]; cbn; intuition discriminate|]. repeat split.
Qed.

(** Without the restriction on names they are not: a name may not contain the separator. *)
Theorem qualified_paths_with_separators_refuted : exists l m,
  l <> m /\ l <> [] /\ m <> [] /\ (forall s, In s (l ++ m) -> s <> EmptyString) /\
  qualified_path_symbol l = qualified_path_symbol m.
Proof.
  exists ["a::b"; "c"], ["a"; "b::c"]. split; [discriminate|]. split; [discriminate|].
  split; [discriminate|]. split; [|reflexivity].
  intros s [<-|[<-|[<-|[<-|[]]]]]; discriminate.
Qed.
Print Assumptions qualified_paths_with_separators_refuted.
