(** C52: type aliases of a printed module resolve to the types they stand for. *)
From Coq Require Import String List Lia Permutation.
From Verif Require Import AliasSpec AliasProofs AliasMain OpTextSpec TextProps.
Open Scope string_scope.
Open Scope list_scope.
Import ListNotations.

(** The definitions of a module, read one after the other, all resolve; afterwards every type that is printed with the aliases in use resolves to itself. *)
Theorem aliases_resolve : forall complexity min_uses min_complexity show finite fuel aliases outer counts e,
  NoDup (map fst aliases) -> (forall a, In a aliases -> plain (snd a)) -> (forall c, In c counts -> plain (fst c)) -> consistent e aliases outer ->
  (List.length aliases + List.length outer + List.length counts <= fuel)%nat ->
  exists defs m e', module_aliases complexity min_uses min_complexity show finite fuel aliases outer counts = Some (defs, m)
    /\ build_defs e (map read_def defs) = Some e'
    /\ forall t, plain t -> build_type e' (abbreviated (look m) t) = Some t.
Proof.
  assert (H : forall complexity min_uses min_complexity show finite fuel aliases outer counts e,
    NoDup (map fst aliases) -> (forall a, In a aliases -> plain (snd a)) -> (forall c, In c counts -> plain (fst c)) -> consistent e aliases outer ->
    (List.length aliases + List.length outer + List.length counts <= fuel)%nat ->
    exists defs m e', module_aliases complexity min_uses min_complexity show finite fuel aliases outer counts = Some (defs, m)
      /\ build_defs e (map read_def defs) = Some e'
      /\ forall t, plain t -> build_type e' (abbreviated (look m) t) = Some t).
  { intros complexity mu mc show finite fuel aliases outer counts e N P1 P2 C L. destruct (module_ok complexity mu mc show finite fuel aliases outer counts e N P1 P2 C L) as (ds & m & E & S & So).
    do 3 eexists. split; [exact E|]. split; [apply stepwise_build; exact S|]. intros t Pt. apply build_back; [exact Pt|]. intros s name _. apply So. }
  exact H.
Qed.
Print Assumptions aliases_resolve.

(** The same for a module that is printed on its own: the aliases in use at the start are those of the registry. *)
Lemma top_level_ok : forall complexity min_uses min_complexity show finite fuel aliases counts,
  NoDup (map fst aliases) -> (forall a, In a aliases -> plain (snd a)) -> (forall c, In c counts -> plain (fst c)) ->
  (2 * List.length aliases + List.length counts <= fuel)%nat ->
  exists defs m e, module_aliases complexity min_uses min_complexity show finite fuel aliases (initial aliases) counts = Some (defs, m)
    /\ build_defs [] (map read_def defs) = Some e
    /\ forall t, plain t -> build_type e (abbreviated (look m) t) = Some t.
Proof.
  intros. apply aliases_resolve; auto; [apply initial_consistent|]. pose proof (initial_length aliases []) as L. unfold initial. cbn [List.length] in L. lia.
Qed.
Theorem module_aliases_resolve : forall complexity min_uses min_complexity show finite fuel aliases counts,
  NoDup (map fst aliases) -> (forall a, In a aliases -> plain (snd a)) -> (forall c, In c counts -> plain (fst c)) ->
  (2 * List.length aliases + List.length counts <= fuel)%nat ->
  exists defs m e, module_aliases complexity min_uses min_complexity show finite fuel aliases (initial aliases) counts = Some (defs, m)
    /\ build_defs [] (map read_def defs) = Some e
    /\ forall t, plain t -> build_type e (abbreviated (look m) t) = Some t.
Proof. exact top_level_ok. Qed.
Print Assumptions module_aliases_resolve.

(** The order of definitions: nothing is lost, and each comes after those that occur in its type.  (The fallback for cycles is never taken.) *)
Theorem aliases_in_order : forall l, Permutation l (topological_sort l)
  /\ forall pre a post, topological_sort l = pre ++ a :: post -> forall b, In b l -> inside (snd b) (snd a) -> In (snd b) (map snd pre).
Proof.
  assert (H : forall l, Permutation l (topological_sort l)
    /\ forall pre a post, topological_sort l = pre ++ a :: post -> forall b, In b l -> inside (snd b) (snd a) -> In (snd b) (map snd pre)).
  { intros l. destruct (topological_ok l) as [P O]. split; [exact P|]. intros pre a post E b I K. destruct (O pre a post E (snd b) (in_map snd _ _ I) K) as [[]|Q]; exact Q. }
  exact H.
Qed.
Print Assumptions aliases_in_order.

(** The names that are made up differ from each other and from those in use, and stand for types used in the module. *)
Theorem made_up_names_fresh : forall complexity min_uses min_complexity show finite fuel counts m l,
  auto_aliases complexity min_uses min_complexity show finite fuel counts m = Some l ->
  NoDup (map fst l) /\ (forall x, In x (map fst l) -> ~ In x (map snd m)) /\ (forall a, In a l -> In (snd a) (map fst counts)).
Proof. exact auto_aliases_ok. Qed.
Print Assumptions made_up_names_fresh.

(** The made-up aliases do not depend on the order in which the hash map lists the types, provided that different types have different texts. *)
Theorem aliases_ignore_hash_order : forall complexity min_uses min_complexity show finite fuel counts counts' m,
  Permutation counts counts' -> NoDup (map fst counts) ->
  (forall a b, In a (map fst counts) -> In b (map fst counts) -> write_type (fun _ => None) show finite a = write_type (fun _ => None) show finite b -> a = b) ->
  auto_aliases complexity min_uses min_complexity show finite fuel counts m = auto_aliases complexity min_uses min_complexity show finite fuel counts' m.
Proof. exact auto_perm. Qed.
Print Assumptions aliases_ignore_hash_order.
(** For types that can be read back, that is the case (C35). *)
Lemma texts_differ : forall show finite read, decimal_floats show finite read -> forall complexity min_uses min_complexity fuel counts counts' m,
  Permutation counts counts' -> NoDup (map fst counts) -> (forall a, In a (map fst counts) -> type_ok (fun _ => None) finite a) ->
  auto_aliases complexity min_uses min_complexity show finite fuel counts m = auto_aliases complexity min_uses min_complexity show finite fuel counts' m.
Proof. intros. eapply auto_perm; eauto. intros. eapply printing_is_injective; eauto. Qed.
Theorem aliases_deterministic : forall show finite read, decimal_floats show finite read -> forall complexity min_uses min_complexity fuel counts counts' m,
  Permutation counts counts' -> NoDup (map fst counts) -> (forall a, In a (map fst counts) -> type_ok (fun _ => None) finite a) ->
  auto_aliases complexity min_uses min_complexity show finite fuel counts m = auto_aliases complexity min_uses min_complexity show finite fuel counts' m.
Proof. exact texts_differ. Qed.
Print Assumptions aliases_deterministic.

(** ** A case *)
Definition named (s : string) (ps : list ty) : ty := Ty (lit "adt") (lit "struct") ps [(lit "name", Symbol (lit s))].
Definition point : ty := named "Point" [i32; i32].
Definition line : ty := named "Line" [point; point].
Definition pts : ty := Ty (lit "core") (lit "array") [point] [(lit "of", Type_ line)].
Definition heavy (t : ty) : N := match t with Ty _ _ (_ :: _) _ => 50 | _ => 10 end.
Definition shown (b : N) : text := [].
Definition fin (b : N) : bool := true.
Lemma plain_named s ps : Forall plain ps -> plain (named s ps).
Proof. intros. constructor; auto. - constructor; [|constructor]. apply plain_leaf; intros; discriminate. - cbn. repeat constructor. Qed.
Lemma plain_i32 : plain i32. Proof. constructor; constructor. Qed.
Lemma plain_point : plain point. Proof. apply plain_named. repeat constructor. Qed.
Lemma plain_line : plain line. Proof. apply plain_named. repeat (constructor; [exact plain_point|]). constructor. Qed.
Lemma plain_pts : plain pts.
Proof. constructor. - constructor; [exact plain_point|constructor]. - constructor; [|constructor]. apply plain_type. exact plain_line. - cbn. repeat constructor. Qed.
Definition manual : list (text * ty) := [(lit "zz", i32); (lit "Line", line)].
Definition used : list (ty * N) := [(pts, 2%N); (point, 3%N); (i32, 9%N)].
Definition short : ty := named "Point" [Alias (lit "zz"); Alias (lit "zz")].
Example case_defs : option_map (fun r => map read_def (fst r)) (module_aliases heavy 2 40 shown fin 20 manual (initial manual) used) =
  Some [(lit "zz", i32); (lit "Line", named "Line" [short; short]); (lit "Point", short); (lit "t0", Ty (lit "core") (lit "array") [Alias (lit "Point")] [(lit "of", Type_ (Alias (lit "Line")))])].
Proof. reflexivity. Qed.
Example case_resolves : exists defs m e, module_aliases heavy 2 40 shown fin 20 manual (initial manual) used = Some (defs, m)
    /\ build_defs [] (map read_def defs) = Some e
    /\ build_type e (abbreviated (look m) pts) = Some pts.
Proof.
  destruct (module_aliases_resolve heavy 2 40 shown fin 20 manual used) as (defs & m & e & E & B & R).
  - cbn. repeat constructor; cbn; intuition discriminate.
  - intros a [<-|[<-|[]]]; [exact plain_i32|exact plain_line].
  - intros c [<-|[<-|[<-|[]]]]; [exact plain_pts|exact plain_point|exact plain_i32].
  - cbn. lia.
  - exists defs, m, e. auto using plain_pts.
Qed.

(** ** What does not hold *)
(** A type with two names in the registry is printed with the last one only, so the first may be made up again for another type.  In a nested module
    the registry is printed once more, and what stands for the other type now resolves to the first. *)
Definition twice : list (text * ty) := [(lit "A", i32); (lit "B", i32)].
Definition structA : ty := named "A" [i32].
Theorem nested_alias_refuted : exists aliases counts t, NoDup (map fst aliases) /\ plain t /\
  match module_aliases heavy 2 40 shown fin 20 aliases (initial aliases) counts with
  | Some (defs, m) =>
      match build_defs [] (map read_def defs), module_aliases heavy 2 40 shown fin 20 aliases m [] with
      | Some e, Some (defs', m') => match build_defs e (map read_def defs') with Some e' => exists t', build_type e' (abbreviated (look m') t) = Some t' /\ t' <> t | None => False end
      | _, _ => False
      end
  | None => False
  end.
Proof.
  exists twice, [(structA, 2%N)], structA. split; [cbn; repeat constructor; cbn; intuition discriminate|]. split; [apply plain_named; repeat constructor|].
  vm_compute. eexists. split; [reflexivity|discriminate].
Qed.
Print Assumptions nested_alias_refuted.
(** Types with the same text may be numbered in either order. *)
Theorem equal_texts_refuted : exists counts counts', Permutation counts counts' /\ NoDup (map fst counts) /\
  auto_aliases heavy 2 0 shown fin 20 counts [] <> auto_aliases heavy 2 0 shown fin 20 counts' [].
Proof.
  exists [(Ty (lit "a") (lit "b.c") [] [], 2%N); (Ty (lit "a.b") (lit "c") [] [], 2%N)], [(Ty (lit "a.b") (lit "c") [] [], 2%N); (Ty (lit "a") (lit "b.c") [] [], 2%N)].
  split; [apply perm_swap|]. split; [cbn; repeat constructor; cbn; intuition discriminate|]. vm_compute. intros E. discriminate E.
Qed.
Print Assumptions equal_texts_refuted.
