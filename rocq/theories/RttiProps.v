(** C75: what the generated release functions give up. *)
From Coq Require Import String List.
From Verif Require Import RttiModel RttiSpec RttiProofs RttiMain.
From Verif Require RcModel.
Open Scope string_scope.
Open Scope list_scope.
Open Scope N_scope.
Import ListNotations.

(** Whatever was in memory before: when the last reference to a struct goes away, its release function releases each field that is
    a non-null pointer (but a field called [func_ptr]) once, in order, and nothing else; then it frees as many bytes as were allocated. *)
Theorem a_dead_struct_gives_up_its_pointers : forall fields vs m size m',
  small fields -> List.length vs = List.length fields -> new_struct fields vs m = (size, m') ->
  exists ws, release_object (release_struct fields) m' = Freed ws size /\
    selected (fun f => fst f <> "func_ptr" /\ pointer_type (snd f)) fields vs ws.
Proof. exact struct_lemma. Qed.
Print Assumptions a_dead_struct_gives_up_its_pointers.

(** A value of an enum, whichever variant it is: it can be built, and its release function releases the pointers of that variant. *)
Theorem a_dead_variant_gives_up_its_pointers : forall vars i name ts vs m,
  Forall (fun v => small (snd v)) vars -> N.of_nat (List.length vars) <= 2 ^ 32 -> NoDup (map fst vars) ->
  nth_error vars i = Some (name, ts) -> List.length vs = List.length ts ->
  exists size m' ws, new_variant vars name vs m = Some (size, m') /\
    release_object (release_enum vars) m' = Freed ws size /\ selected pointer_type ts vs ws.
Proof. exact variant_lemma. Qed.
Print Assumptions a_dead_variant_gives_up_its_pointers.

(** The types that are constructed somewhere get indices of their own, from 32 on and without gaps beyond their number. *)
Theorem types_have_their_own_release_function : forall ts,
  let idx := rtti_get (type_to_idx (collect_types ts)) in
  (forall t, In t ts <-> exists i, idx t = Some i) /\
  (forall t i, idx t = Some i -> 32 <= i < 32 + N.of_nat (List.length ts)) /\
  (forall t u i, idx t = Some i -> idx u = Some i -> t = u).
Proof. exact indices_lemma. Qed.
Print Assumptions types_have_their_own_release_function.

(** For a type declared in a program: building an object retains the objects its fields hold, and its release function releases
    the fields declared as [Bytes]. *)
Definition lower_fields (decl : list (string * annotation)) : list (string * ty) := map (fun d => (fst d, field_type (snd d))) decl.

Lemma declared_lemma decl vs m size m' :
  small decl -> List.length vs = List.length decl -> new_struct (lower_fields decl) vs m = (size, m') ->
  exists ws, release_object (release_struct (lower_fields decl)) m' = Freed ws size /\
    selected (fun d => fst d <> "func_ptr" /\ bytes_annotation (snd d)) decl vs ws /\
    selected (fun d => object_annotation (snd d)) decl vs (retained (map snd (lower_fields decl)) vs).
Proof.
  intros Hs Hl H. destruct (struct_lemma (lower_fields decl) vs m size m') as (ws & R & S).
  - unfold small, lower_fields in *. rewrite map_length. exact Hs.
  - unfold lower_fields. rewrite map_length. exact Hl.
  - exact H.
  - exists ws. split; [exact R|]. split.
    + revert S. apply selected_iff. intros [n a] _. cbn [fst snd]. unfold released_field. cbn [fst snd]. rewrite declared_pointer. tauto.
    + unfold lower_fields. rewrite map_map. cbn [snd].
      assert (G : selected object_annotation (map snd decl) vs (retained (map field_type (map snd decl)) vs)).
      { apply retained_declared. rewrite map_length. exact Hl. }
      rewrite map_map in G. revert G. apply selected_iff. tauto.
Qed.

Theorem a_declared_type_gives_up_only_bytes : forall decl vs m size m',
  small decl -> List.length vs = List.length decl -> new_struct (lower_fields decl) vs m = (size, m') ->
  exists ws, release_object (release_struct (lower_fields decl)) m' = Freed ws size /\
    selected (fun d => fst d <> "func_ptr" /\ bytes_annotation (snd d)) decl vs ws /\
    selected (fun d => object_annotation (snd d)) decl vs (retained (map snd (lower_fields decl)) vs).
Proof. exact declared_lemma. Qed.
Print Assumptions a_declared_type_gives_up_only_bytes.

(** The property: an object gives up, when it dies, what it kept when it was built.  It holds for types that hold only numbers
    and the like; missing: every type with another field (see the refutations). *)
Definition gives_up_what_it_kept (decl : list (string * annotation)) : Prop := forall vs m size m',
  List.length vs = List.length decl -> new_struct (lower_fields decl) vs m = (size, m') ->
  release_object (release_struct (lower_fields decl)) m' = Freed (retained (map snd (lower_fields decl)) vs) size.

Lemma balanced_lemma decl : small decl -> Forall (fun d => scalar_annotation (snd d)) decl -> gives_up_what_it_kept decl.
Proof.
  intros Hs Hf vs m size m' Hl H. destruct (declared_lemma decl vs m size m' Hs Hl H) as (ws & R & S1 & S2).
  rewrite Forall_forall in Hf.
  apply selected_none in S1; [|intros d Hd [_ B]; destruct (Hf d Hd) as (n & E & Hn); unfold bytes_annotation in B;
    rewrite B in E; injection E as <-; cbn in Hn; repeat (destruct Hn as [Hn|Hn]; [discriminate|]); exact Hn].
  apply selected_none in S2; [|intros d Hd [B _]; exact (B (Hf d Hd))]. rewrite R, S1, S2. reflexivity.
Qed.

Theorem numbers_are_balanced_partial : forall decl,
  small decl -> Forall (fun d => scalar_annotation (snd d)) decl -> gives_up_what_it_kept decl.
Proof. exact balanced_lemma. Qed.
Print Assumptions numbers_are_balanced_partial.

(** Every type with a field of another kind breaks it. *)
Lemma selected_null_words {T} (P : T -> Prop) (ts : list T) : selected P ts (map (fun _ => 0%Z) ts) [].
Proof. induction ts; constructor; assumption. Qed.
Lemma selected_unique {T} (P : T -> Prop) ts : forall vs ws ws', selected P ts vs ws -> selected P ts vs ws' -> ws = ws'.
Proof.
  intros vs ws ws' H. revert ws'. induction H as [|t v ts vs ws Hp Hv H IH|t ts vs ws H IH|t v ts vs ws Hp H IH];
    intros ws' H'; inversion H'; subst; try contradiction; try reflexivity; try (f_equal; apply IH; assumption); apply IH; assumption.
Qed.
Lemma selected_one {T} (P : T -> Prop) t (a b : list T) (w : Z) : w <> 0%Z ->
  let vs := (map (fun _ => 0%Z) a ++ w :: map (fun _ => 0%Z) b)%list in
  (P t -> selected P (a ++ t :: b) vs [w]) /\ (~ P t -> selected P (a ++ t :: b) vs []).
Proof.
  intros Hw vs. unfold vs. clear vs. induction a as [|x a [I1 I2]]; cbn [app map].
  - split; intros H.
    + apply selected_take; [exact H|exact Hw|apply selected_null_words].
    + apply selected_skip; [exact H|apply selected_null_words].
  - split; intros H; apply selected_null; auto.
Qed.

Lemma unbalanced_lemma decl : small decl -> (exists d, In d decl /\ (object_annotation (snd d) \/ (bytes_annotation (snd d) /\ fst d <> "func_ptr"))) ->
  ~ gives_up_what_it_kept decl.
Proof.
  intros Hs (d & Hd & Hc) H. apply in_split in Hd as (a & b & ->).
  set (vs := (map (fun _ => 0%Z) a ++ 8%Z :: map (fun _ => 0%Z) b)%list).
  assert (Hl : List.length vs = List.length (a ++ d :: b)) by (unfold vs; rewrite !app_length; cbn; rewrite !map_length; reflexivity).
  destruct (new_struct (lower_fields (a ++ d :: b)) vs (fun _ => 0%Z)) as [size m'] eqn:E.
  destruct (declared_lemma _ _ _ _ _ Hs Hl E) as (ws & R & S1 & S2). rewrite (H _ _ _ _ Hl E) in R. injection R as R.
  destruct (selected_one (fun d => fst d <> "func_ptr" /\ bytes_annotation (snd d)) d a b 8 ltac:(discriminate)) as [O1 O2].
  destruct (selected_one (fun d : string * annotation => object_annotation (snd d)) d a b 8 ltac:(discriminate)) as [O3 O4].
  fold vs in O1, O2, O3, O4. destruct Hc as [Ho|[Hb Hn]].
  - pose proof (selected_unique _ _ _ _ _ S2 (O3 Ho)) as E1.
    pose proof (selected_unique _ _ _ _ _ S1 (O2 (fun x => proj2 Ho (proj2 x)))) as E2. congruence.
  - pose proof (selected_unique _ _ _ _ _ S1 (O1 (conj Hn Hb))) as E1.
    pose proof (selected_unique _ _ _ _ _ S2 (O4 (fun x => proj2 x Hb))) as E2. congruence.
Qed.

Theorem types_that_hold_objects_are_not_balanced : forall decl, small decl ->
  (exists d, In d decl /\ (object_annotation (snd d) \/ (bytes_annotation (snd d) /\ fst d <> "func_ptr"))) ->
  ~ gives_up_what_it_kept decl.
Proof. exact unbalanced_lemma. Qed.
Print Assumptions types_that_hold_objects_are_not_balanced.

Theorem an_object_gives_up_what_it_kept_refuted : exists decl, small decl /\ ~ gives_up_what_it_kept decl.
Proof.
  exists [("name", Named "String"); ("age", Named "Int")]. split; [vm_compute; discriminate|].
  apply unbalanced_lemma; [vm_compute; discriminate|]. exists ("name", Named "String"). split; [left; reflexivity|]. left. cbn [snd].
  split; [intros (n & E & Hn)|discriminate]. injection E as <-. cbn in Hn. repeat (destruct Hn as [Hn|Hn]; [discriminate|]). exact Hn.
Qed.
Print Assumptions an_object_gives_up_what_it_kept_refuted.

(** On the heap of C43: the word of object [k] is 16 (k + 1).  A program that builds an object, puts it into a field of a second
    object and drops both.  [kept]: the words the second one retains; [given_up]: the words its release function releases. *)
Definition word (k : nat) : Z := 16 * (Z.of_nat k + 1).
Definition object_at (w : Z) : option nat := if Z.eqb w 0 then None else Some (Z.to_nat (w / 16 - 1)).
Definition drop_both (inner_typed : bool) (kept given_up : list Z) (size : Z) : RcModel.res :=
  RcModel.hrun [] ([RcModel.HNew inner_typed 24 []] ++ map (fun w => RcModel.HRetain (object_at w)) kept ++
    [RcModel.HNew true size (map object_at given_up); RcModel.HRelease (Some 0%nat) 24; RcModel.HRelease (Some 1%nat) size]).
Definition run_box (a : annotation) : option (list Z * list Z * Z) :=
  let fields := lower_fields [("value", a)] in
  let '(size, m) := new_struct fields [word 0] (fun _ => 0%Z) in
  match release_object (release_struct fields) m with
  | Freed ws s => if s =? size then Some (retained (map snd fields) [word 0], ws, Z.of_N size) else None
  | _ => None
  end.

(** All references are gone and the outer object is freed, but the inner one is not and keeps a count of one. *)
Theorem an_object_in_a_field_is_freed_refuted : exists kept given_up size inner outer,
  run_box (Named "String") = Some (kept, given_up, size) /\
  drop_both true kept given_up size = RcModel.Ok [inner; outer] /\
  RcModel.freed outer = true /\ RcModel.freed inner = false /\ RcModel.rc inner = 1%Z.
Proof. do 5 eexists. split; [reflexivity|]. split; [vm_compute; reflexivity|]. repeat split. Qed.
Print Assumptions an_object_in_a_field_is_freed_refuted.
(** Had the release function released what was kept, both would be freed. *)
Example both_would_be_freed : match run_box (Named "String") with
  | Some (kept, _, size) => match drop_both true kept kept size with
      RcModel.Ok hs => map RcModel.freed hs = [true; true] | _ => False end
  | None => False end.
Proof. vm_compute. reflexivity. Qed.

(** Non-trivial cases: a closure, whose function pointer is not released; an enum with a variant that holds a pointer and two that do
    not; indices of repeated types. *)
Example a_closure : let f := [("func_ptr", core "i64"); ("env", core "ptr")] in
  small f /\ release_object (release_struct f) (snd (new_struct f [77; 16]%Z (fun _ => 5%Z))) = Freed [16%Z] 24.
Proof. vm_compute. split; [discriminate|reflexivity]. Qed.
Example an_enum : let e := [("Nothing", []); ("Data", [core "i32"; core "bytes"; core "i1"; {| dialect := "adt"; tname := "typeref" |}]); ("Count", [core "i32"])] in
  Forall (fun v => small (snd v)) e /\ N.of_nat (List.length e) <= 2 ^ 32 /\ NoDup (map fst e) /\
  map (fun x => match new_variant e (fst x) (snd x) (fun _ => 9%Z) with
                | Some (size, m) => Some (size, release_object (release_enum e) m) | None => None end)
      [("Nothing", []); ("Data", [1; 16; 1; 32]%Z); ("Data", [1; 16; 1; 0]%Z); ("Count", [3]%Z)] =
  [Some (48, Freed [] 48); Some (48, Freed [16; 32]%Z 48); Some (48, Freed [16]%Z 48); Some (48, Freed [] 48)].
Proof.
  intros e. split; [|split; [|split]].
  - repeat (constructor; [vm_compute; discriminate|]). constructor.
  - vm_compute. discriminate.
  - cbn. repeat (constructor; [cbn; intuition discriminate|]). constructor.
  - vm_compute. reflexivity.
Qed.
Example indices : map (rtti_get (type_to_idx (collect_types [7; 3; 7; 5; 3]%nat))) [7; 3; 5; 1]%nat = [Some 32; Some 33; Some 34; None].
Proof. reflexivity. Qed.
Example numbers : let d := [("x", Named "Int"); ("y", Named "Float"); ("b", Named "Bool")] in
  small d /\ Forall (fun x => scalar_annotation (snd x)) d.
Proof.
  split; [vm_compute; discriminate|]. repeat constructor; (eexists; split; [reflexivity|cbn; auto 10]).
Qed.
