(** A semantics in which different types and different sets of effects have different values:
    types are encoded as numbers, rows are finite sets of encoded effects. *)
From stdpp Require Import gmap strings.
From Verif Require Import TyModel UnifySpec.

Definition code_prim (p : prim) : nat :=
  match p with
  | PInt => 0 | PNat => 1 | PFloat => 2 | PBool => 3 | PBytes => 4 | PRune => 5 | PNil => 6 | PNever => 7
  end.
Definition code_origin (o : origin) : nat :=
  match o with BuiltinList => 0 | Synthetic => 1 | Source n => S (S n) end.
Definition code_tydef (d : tydef) : positive := encode (code_origin (td_origin d), td_qualified d).
Definition code_effect (a : ability) (xs : list positive) : positive :=
  encode (ab_builtin a, ab_qualified a, xs).

Definition free : semantics.
Proof.
  refine {| s_ty := positive;
            s_row := gset positive;
            s_prim p := encode (0, encode (code_prim p));
            s_bound i := encode (1, encode i);
            s_local s i := encode (2, encode (s, i));
            s_named d xs := encode (3, encode (code_tydef d, xs));
            s_func ps r e := encode (4, encode (ps, r, e));
            s_tuple xs := encode (5, encode xs);
            s_app c xs := encode (6, encode (c, xs));
            s_cont a r e := encode (7, encode (a, r, e));
            s_error := encode (8, encode 0);
            s_empty := ∅;
            s_ext a xs r := {[ code_effect a xs ]} ∪ r |}.
  - intros. set_solver.
  - intros. set_solver.
Defined.

Lemma code_effect_inj a xs b ys : code_effect a xs = code_effect b ys -> a = b /\ xs = ys.
Proof.
  unfold code_effect. intros H. apply encode_inj in H. destruct a, b. cbn in H. injection H as -> -> ->. auto.
Qed.

Lemma free_ext a xs (r : gset positive) : s_ext free a xs r = {[ code_effect a xs ]} ∪ r.
Proof. reflexivity. Qed.

Lemma free_row th es tail x : x ∈ (meaning_row free th (es, tail) : gset positive) <->
  (exists a ys, In (a, ys) es /\ x = code_effect a (List.map (meaning free th) ys)) \/
  (exists v, tail = Some v /\ x ∈ (snd th v : gset positive)).
Proof.
  unfold meaning_row. cbn [fst snd]. induction es as [|[a ys] es IH].
  - cbn [meaning_effects fold_right]. destruct tail as [v|].
    + split; [intros H; right; exists v; auto|]. intros [[a [ys [[] _]]]|[w [E H]]]. injection E as <-. exact H.
    + split; [intros H; cbn in H; set_solver|]. intros [[a [ys [[] _]]]|[w [E _]]]. discriminate.
  - change (x ∈ ({[ code_effect a (List.map (meaning free th) ys) ]} ∪
      (meaning_effects free th es (match tail with Some v => snd th v | None => s_empty free end) : gset positive)) <-> 
      (exists b zs, In (b, zs) ((a, ys) :: es) /\ x = code_effect b (List.map (meaning free th) zs)) \/
      (exists v, tail = Some v /\ x ∈ (snd th v : gset positive))).
    rewrite elem_of_union, elem_of_singleton. rewrite IH. split.
    + intros [->|[[b [zs [I E]]]|R]]; [left; exists a, ys; split; [left|]; reflexivity | left; exists b, zs; split; [right|]; assumption | right; exact R].
    + intros [[b [zs [[E|I] X]]]|R]; [injection E as -> ->; left; exact X | right; left; exists b, zs; auto | right; right; exact R].
Qed.

(** Rows of closed effects have the same value just when they list the same effects. *)
Lemma free_closed_rows th es1 es2 : meaning_row free th (es1, None) = meaning_row free th (es2, None) <->
  (forall a xs, (exists ys, In (a, ys) es1 /\ List.map (meaning free th) ys = xs) <->
                (exists ys, In (a, ys) es2 /\ List.map (meaning free th) ys = xs)).
Proof.
  assert (M : forall es a xs, code_effect a xs ∈ (meaning_row free th (es, None) : gset positive) <->
    exists ys, In (a, ys) es /\ List.map (meaning free th) ys = xs).
  { intros es a xs. rewrite free_row. split.
    - intros [[b [zs [I E]]]|[v [E _]]]; [|discriminate]. apply code_effect_inj in E as [<- ->]. exists zs. auto.
    - intros [ys [I <-]]. left. exists a, ys. auto. }
  split.
  - intros E a xs. rewrite <- !M, E. reflexivity.
  - intros H. apply set_eq. intros x. split; intros X; pose proof X as Y; apply free_row in Y as [[a [ys [I ->]]]|[v [E _]]]; try discriminate;
      apply M, H, M; exact X.
Qed.
