(** What it means for type aliases to be usable. *)
From Coq Require Export Sorted.
From Verif Require Export AliasModel TextSpec.

(** A type of the IR: no alias name in it, and the keys of each attribute map in increasing order. *)
Definition below (a b : text) : Prop := text_cmp a b = Lt.
Inductive plain : ty -> Prop :=
| plain_ty d n ps ats : Forall plain ps -> Forall (fun kv => plain_attr (snd kv)) ats -> StronglySorted below (map fst ats) -> plain (Ty d n ps ats)
with plain_attr : attr -> Prop :=
| plain_type t : plain t -> plain_attr (Type_ t)
| plain_list l : Forall plain_attr l -> plain_attr (List l)
| plain_leaf a : (forall t, a <> Type_ t) -> (forall l, a <> List l) -> plain_attr a.

(** One type occurs inside another, not being all of it. *)
Inductive inside (s : ty) : ty -> Prop :=
| inside_param d n ps ats p : In p ps -> s = p \/ inside s p -> inside s (Ty d n ps ats)
| inside_attr d n ps ats k v : In (k, v) ats -> inside_value s v -> inside s (Ty d n ps ats)
with inside_value (s : ty) : attr -> Prop :=
| in_type t : s = t \/ inside s t -> inside_value s (Type_ t)
| in_list l a : In a l -> inside_value s a -> inside_value s (List l).

(** What is read of a definition that has been printed. *)
Definition read_def (d : text * amap * ty) : text * ty := match d with (name, m, t) => (name, abbreviated (look m) t) end.
(** The aliases in use when the printing of a module starts: those of the registry, and those of the modules around it, which the reader knows and whose
    names are not names of the registry. *)
Definition consistent (e : env) (aliases : list (text * ty)) (outer : amap) : Prop :=
  forall t name, look outer t = Some name -> In (name, t) aliases \/ (env_get e name = Some t /\ ~ In name (map fst aliases)).
