(** What the declarations of a file make available: specification for C57.  Paths are lists of names. *)
From Verif Require Export ResolveSpec.

Section Declared.
  Context {R : Type}.
  (** Declaration [d] in the module [pre] makes [b] available under the path, relative to [pre]. *)
  Inductive declares : list string -> decl R -> list string -> binding -> Prop :=
  | of_function pre n ps ef x : declares pre (DFunction n ps ef x) [n] (Function (path_text (pre ++ [n])))
  | of_extern pre n : declares pre (DExtern n) [n] (Function (path_text (pre ++ [n])))
  | of_struct pre n i fs : declares pre (DStruct n i fs) [n] (Constructor (path_text (pre ++ [n])) None (List.length fs))
  | of_field pre n i fs f : In (Some f) fs -> declares pre (DStruct n i fs) [n; f] (Function (path_text (pre ++ [n; f])))
  | of_enum pre n i vs : declares pre (DEnum n i vs) [n] (TypeDef (SourceType (path_text (pre ++ [n])) i))
  | of_variant pre n i vs v k : In (v, k) vs -> declares pre (DEnum n i vs) [n; v] (Constructor (path_text (pre ++ [v])) (Some v) k)
  | of_bare_variant pre n i vs v k : In (v, k) vs -> declares pre (DEnum n i vs) [v] (Constructor (path_text (pre ++ [v])) (Some v) k)
  | of_ability pre n os : declares pre (DAbility n os) [n] (Ability (SourceAbility (path_text (pre ++ [n]))))
  | of_operation pre n os o k : In (o, k) os -> declares pre (DAbility n os) [n; o] (AbilityOp (SourceAbility (path_text (pre ++ [n]))) o k)
  | of_inner pre m body d path b : In d body -> declares (pre ++ [m]) d path b -> declares pre (DModule m (Some body)) (m :: path) b.
  Definition declared (pre : list string) (ds : list (decl R)) (path : list string) (b : binding) : Prop := exists d, In d ds /\ declares pre d path b.
  (** No path is declared with two meanings. *)
  Definition unambiguous (ds : list (decl R)) : Prop := forall path b b', declared [] ds path b -> declared [] ds path b' -> b = b'.

  (** Names as the grammar has them. *)
  Fixpoint decl_names (d : decl R) : list string :=
    match d with
    | DFunction n _ _ _ | DExtern n => [n]
    | DStruct n _ fs => n :: flat_map (of_option (fun f => [f])) fs
    | DEnum n _ vs => n :: map fst vs
    | DAbility n os => n :: map fst os
    | DUse path alias => path ++ of_option (fun a => [a]) alias
    | DModule n body => n :: of_option (flat_map decl_names) body
    end.
  Definition names_ok (ds : list (decl R)) : Prop := forall n, In n (flat_map decl_names ds) -> name_ok n.
  (** In no module are there two inline modules of the same name. *)
  Definition module_name (d : decl R) : list string := match d with DModule n (Some _) => [n] | _ => [] end.
  Inductive modules_once : list (decl R) -> Prop :=
  | once ds : NoDup (flat_map module_name ds) -> (forall n body, In (DModule n (Some body)) ds -> modules_once body) -> modules_once ds.
End Declared.

(** ** [use] *)
(** What an import of [path] under [name] stands for. *)
Definition import_target (e : env) (path : list string) (b : binding) : Prop :=
  exists front n, path = front ++ [n] /\ lookup_qualified e (path_text front) n = Some b.
(** The imports that [use] left to be resolved. *)
Definition waiting (e : env) (name : string) (path : list string) : Prop := at_key (imports e) name = Some (Module path) /\ (2 <= List.length path)%nat.
(** No import is looked up through the name of another. *)
Definition independent (e : env) : Prop := forall a p b q, waiting e a p -> waiting e b q -> a <> b ->
  a <> path_text q /\ a <> path_text (removelast q).
(** A declaration of a file introduces a name for a path. *)
Inductive introduces {R} : decl R -> string -> list string -> Prop :=
| intro_use path n : introduces (DUse (path ++ [n]) None) n (path ++ [n])
| intro_alias path n a : introduces (DUse (path ++ [n]) (Some a)) a (path ++ [n])
| intro_module n body : introduces (DModule n (Some body)) n [n].
(** The last declaration that introduces [name] introduces it for [path]. *)
Definition introduced {R} (ds : list (decl R)) (name : string) (path : list string) : Prop :=
  exists before d after, ds = before ++ d :: after /\ introduces d name path /\ forall d' p, In d' after -> ~ introduces d' name p.
