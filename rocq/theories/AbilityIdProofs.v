From Verif Require Import Base EvidenceModel EvidenceSpec EvidenceProofs AbilityIdModel AbilityIdSpec.
From Coq Require Import Lia ListDec String List.
Open Scope string_scope. Open Scope list_scope. Import ListNotations.
Open Scope Z_scope.

Lemma irty_ind' (P : irty -> Prop) : (forall d n ps a, Forall P ps -> P (IrTy d n ps a)) -> forall t, P t.
Proof.
  intros H. fix IH 1. intros [d n ps a]. apply H. induction ps as [| p ps IHps]; constructor; [apply IH | exact IHps].
Qed.
Definition attr_dec (a b : irattr) : {a = b} + {a <> b}.
Proof. decide equality; [apply string_dec | apply Z.eq_dec]. Defined.
Definition irty_dec : forall a b : irty, {a = b} + {a <> b}.
Proof.
  fix IH 1. intros [d n ps a] [d' n' ps' a'].
  destruct (string_dec d d') as [<- | N]; [| right; intros E; injection E; intros; contradiction].
  destruct (string_dec n n') as [<- | N]; [| right; intros E; injection E; intros; contradiction].
  destruct (list_eq_dec IH ps ps') as [<- | N]; [| right; intros E; injection E; intros; contradiction].
  destruct (list_eq_dec (fun x y : string * irattr => ltac:(decide equality; [apply attr_dec | apply string_dec])) a a') as [<- | N];
    [left; reflexivity | right; intros E; injection E; intros; contradiction].
Defined.
Definition instance_dec (a b : instance) : {a = b} + {a <> b}.
Proof. decide equality; [apply (list_eq_dec irty_dec) | apply string_dec]. Defined.

Section Hash.
  Variable finish : list hitem -> Z.

  Lemma low32_range z : 0 <= low32 z < 4294967296.
  Proof. apply Z.mod_pos_bound. lia. Qed.
  Lemma as_i32_inj a b : 0 <= a < 4294967296 -> 0 <= b < 4294967296 -> as_i32 a = as_i32 b -> a = b.
  Proof.
    unfold as_i32. intros A B H. assert (E : (a + 2147483648) mod 4294967296 = (b + 2147483648) mod 4294967296) by lia.
    pose proof (Z.div_mod (a + 2147483648) 4294967296). pose proof (Z.div_mod (b + 2147483648) 4294967296).
    pose proof (Z.mod_pos_bound (a + 2147483648) 4294967296). pose proof (Z.mod_pos_bound (b + 2147483648) 4294967296). lia.
  Qed.

  (** ** Hashes of types *)
  Lemma hash_type_code t : hash_type finish t = word32 finish (code finish t).
  Proof.
    induction t as [d n ps a F] using irty_ind'. cbn [hash_type code]. unfold word32 at 1, low32. do 2 f_equal. do 3 f_equal.
    apply map_ext_in. intros p I. f_equal. rewrite Forall_forall in F. exact (F p I).
  Qed.
  Lemma hash_type_shape t : forall t', same_shape t t' -> hash_type finish t = hash_type finish t'.
  Proof.
    induction t as [d n ps a F] using irty_ind'. intros t' H. inversion H as [? ? ? ps' ? a' F2]; subst.
    cbn [hash_type]. unfold low32. f_equal. f_equal. f_equal. f_equal.
    assert (L : List.length ps = List.length ps') by (clear -F2; induction F2; cbn; congruence). rewrite L. f_equal.
    clear H L. induction F2 as [| x y l l' Hxy H2 IH]; [reflexivity|].
    inversion F; subst. cbn [List.map]. f_equal; [f_equal; auto | auto].
  Qed.
  Lemma code_shape t : forall t', tells_apart (word32 finish) (fed finish t ++ fed finish t') ->
    word32 finish (code finish t) = word32 finish (code finish t') -> same_shape t t'.
  Proof.
    induction t as [d n ps a F] using irty_ind'. intros [d' n' ps' a'] T E.
    assert (C : code finish (IrTy d n ps a) = code finish (IrTy d' n' ps' a')).
    { apply T; [apply in_or_app; left; left; reflexivity | apply in_or_app; right; left; reflexivity | exact E]. }
    cbn [code] in C. injection C as -> -> L M. constructor.
    assert (T' : tells_apart (word32 finish) (flat_map (fed finish) ps ++ flat_map (fed finish) ps')).
    { intros x y X Y. apply T; apply in_app_or in X, Y; apply in_or_app; cbn [fed]; [destruct X; [left | right]; right; assumption
        | destruct Y; [left | right]; right; assumption]. }
    clear T E. revert ps' L M T'. induction ps as [| p ps IH]; intros [| p' ps'] L M T'; try discriminate; [constructor|].
    inversion F as [| ? ? Fp Fs]; subst. cbn [List.map] in M. injection M as M1 M2. cbn [List.length] in L. injection L as L. cbn [flat_map] in T'.
    constructor.
    - apply Fp; [| exact M1]. intros x y X Y. apply T'; [apply in_app_or in X as [X | X] | apply in_app_or in Y as [Y | Y]];
        apply in_or_app; [left | right | left | right]; apply in_or_app; left; assumption.
    - apply IH; try assumption. intros x y X Y. apply T'; [apply in_app_or in X as [X | X] | apply in_app_or in Y as [Y | Y]];
        apply in_or_app; [left | right | left | right]; apply in_or_app; right; assumption.
  Qed.

  Lemma logical_id i : compute_ability_id finish (logical_ref i) = Some (word32 finish (instance_code finish i)).
  Proof.
    unfold compute_ability_id, logical_ref, ability_ref_type. cbn [ability_name ty_attrs ty_params find fst String.eqb Ascii.eqb Bool.eqb].
    unfold word32, low32, instance_code. do 5 f_equal. apply map_ext. intros p. f_equal. apply hash_type_code.
  Qed.
  Lemma logical_same i j : iname i = iname j -> Forall2 same_shape (iargs i) (iargs j) ->
    compute_ability_id finish (logical_ref i) = compute_ability_id finish (logical_ref j).
  Proof.
    intros N F. unfold compute_ability_id, logical_ref, ability_ref_type. cbn [ability_name ty_attrs ty_params find fst String.eqb Ascii.eqb Bool.eqb].
    rewrite N. f_equal. f_equal. f_equal. f_equal.
    assert (L : List.length (iargs i) = List.length (iargs j)) by (clear -F; induction F; cbn; congruence). rewrite L. f_equal.
    clear -F. induction F as [| x y l l' Hxy H IH]; [reflexivity|]. cbn [List.map]. rewrite (hash_type_shape x y Hxy), IH. reflexivity.
  Qed.
  Lemma logical_apart i j : tells_apart (word32 finish) (fed_for finish i ++ fed_for finish j) ->
    compute_ability_id finish (logical_ref i) = compute_ability_id finish (logical_ref j) ->
    iname i = iname j /\ Forall2 same_shape (iargs i) (iargs j).
  Proof.
    rewrite !logical_id. intros T E. injection E as E.
    assert (C : instance_code finish i = instance_code finish j).
    { apply T; [apply in_or_app; left; left; reflexivity | apply in_or_app; right; left; reflexivity | exact E]. }
    unfold instance_code in C. injection C as N L M. split; [exact N|].
    assert (T' : tells_apart (word32 finish) (flat_map (fed finish) (iargs i) ++ flat_map (fed finish) (iargs j))).
    { intros x y X Y. apply T; apply in_app_or in X, Y; apply in_or_app; unfold fed_for; [destruct X; [left | right]; right; assumption
        | destruct Y; [left | right]; right; assumption]. }
    clear T E N. revert L M T'. generalize (iargs i) (iargs j). intros ps ps'. revert ps'.
    induction ps as [| p ps IH]; intros [| p' ps'] L M T'; try discriminate; [constructor|].
    cbn [List.map] in M. injection M as M1 M2. cbn [List.length] in L. injection L as L. cbn [flat_map] in T'.
    constructor.
    - apply code_shape; [| exact M1]. intros x y X Y. apply T'; [apply in_app_or in X as [X | X] | apply in_app_or in Y as [Y | Y]];
        apply in_or_app; [left | right | left | right]; apply in_or_app; left; assumption.
    - apply IH; try assumption. intros x y X Y. apply T'; [apply in_app_or in X as [X | X] | apply in_app_or in Y as [Y | Y]];
        apply in_or_app; [left | right | left | right]; apply in_or_app; right; assumption.
  Qed.

  (** ** Finding the handler *)
  Definition name_id (n : string) : Z := word32 finish [HSymbol n; HLength 0].
  Lemma id_of_ref n : id_of finish (ability_ref_type n []) = as_i32 (name_id n).
  Proof. reflexivity. Qed.
  Lemma name_id_range n : 0 <= name_id n < 4294967296.
  Proof. apply Z.mod_pos_bound. lia. Qed.
  Lemma evidence_sorted hs : strictly_sorted (evidence_of finish hs).
  Proof.
    induction hs as [| [i tag] hs IH]; cbn [evidence_of]; [| apply extend_sorted; exact IH].
    intros a b x y E. destruct a; discriminate.
  Qed.
  (** The handler that answers is the newest one whose name has the same hash. *)
  Lemma answering_cons j tag hs i : answering finish ((j, tag) :: hs) i =
    if name_id (iname j) =? name_id (iname i) then Some tag else answering finish hs i.
  Proof.
    unfold answering. cbn [evidence_of]. rewrite lookup_extend by apply evidence_sorted. cbn [ability_id].
    unfold handle_ref, perform_ref. rewrite !id_of_ref.
    destruct (Z.eqb_spec (name_id (iname j)) (name_id (iname i))) as [E | N].
    - rewrite E, Z.eqb_refl. reflexivity.
    - destruct (Z.eqb_spec (as_i32 (name_id (iname j))) (as_i32 (name_id (iname i)))) as [E | _]; [| reflexivity].
      exfalso. apply N. apply as_i32_inj; [apply name_id_range | apply name_id_range | exact E].
  Qed.
  Lemma answering_nil i : answering finish [] i = None.
  Proof. reflexivity. Qed.
  Lemma answering_newest hs i : tells_apart name_id (iname i :: List.map (fun h => iname (fst h)) hs) ->
    (forall j tag, In (j, tag) hs -> iname j = iname i -> j = i) ->
    newest_handler i hs (answering finish hs i).
  Proof.
    induction hs as [| [j tag] hs IH]; intros T O; [constructor|].
    rewrite answering_cons. destruct (Z.eqb_spec (name_id (iname j)) (name_id (iname i))) as [E | N].
    - assert (j = i) as ->; [| constructor]. apply (O j tag); [left; reflexivity|].
      apply T; [right; left; reflexivity | left; reflexivity | exact E].
    - constructor; [intros ->; apply N; reflexivity|]. apply IH.
      + intros x y [X | X] [Y | Y]; apply T; cbn [In List.map]; tauto.
      + intros k t I. apply (O k t). right. exact I.
  Qed.

  (** ** Arms *)
  Definition arm_id (x : string * string) : Z := compute_op_idx finish (Some (fst x)) (Some (snd x)).
  Lemma dispatch_first x arms n : first_arm x arms n -> tells_apart arm_id (x :: arms) -> dispatch finish arms (arm_id x) = Some n.
  Proof.
    induction 1 as [arms | y arms n N H IH]; intros T.
    - destruct x as [a o]. cbn [dispatch]. destruct arms; [reflexivity|].
      unfold arm_id at 1. cbn [fst snd]. rewrite Z.eqb_refl. reflexivity.
    - destruct y as [a o]. assert (D : dispatch finish ((a, o) :: arms) (arm_id x) =
          if arm_id x =? arm_id (a, o) then Some 0%nat else option_map S (dispatch finish arms (arm_id x))).
      { destruct arms; [inversion H | reflexivity]. }
      rewrite D. destruct (Z.eqb_spec (arm_id x) (arm_id (a, o))) as [E | _].
      + exfalso. apply N. symmetry. apply T; [left; reflexivity | right; left; reflexivity | exact E].
      + rewrite IH; [reflexivity|]. intros u v U V. apply T; [destruct U; [left | right; right] | destruct V; [left | right; right]]; assumption.
  Qed.
End Hash.

(** ** Collisions *)
Lemma pigeonhole (M : nat) (f : nat -> Z) : (forall n, 0 <= f n < Z.of_nat M) -> exists i j, (i < j)%nat /\ f i = f j.
Proof.
  intros H. destruct (ListDec.NoDup_dec Z.eq_dec (List.map f (seq 0 (S M)))) as [N | N].
  - exfalso. assert (I : incl (List.map f (seq 0 (S M))) (List.map Z.of_nat (seq 0 M))).
    { intros z Z0. apply in_map_iff in Z0 as (n & <- & _). apply in_map_iff. exists (Z.to_nat (f n)).
      specialize (H n). split; [lia|]. apply in_seq. lia. }
    pose proof (NoDup_incl_length N I) as L. rewrite !map_length, !seq_length in L. lia.
  - assert (X : exists l, ~ NoDup (List.map f l) /\ NoDup l) by (exists (seq 0 (S M)); split; [exact N | apply seq_NoDup]).
    clear N. destruct X as (l & N & D). revert N. induction D as [| x l Nx D IH]; intros N; [exfalso; apply N; constructor|].
    destruct (in_dec Z.eq_dec (f x) (List.map f l)) as [I | I].
    + apply in_map_iff in I as (y & E & Iy). assert (x <> y) by (intros ->; contradiction).
      destruct (Nat.lt_gt_cases x y) as [Lg _]. destruct (Lg H0); [exists x, y | exists y, x]; split; auto.
    + apply IH. intros ND. apply N. cbn [List.map]. constructor; assumption.
Qed.
(** Names "a", "aa", "aaa", ... *)
Fixpoint many (n : nat) : string := match n with O => "a" | S n => String (Ascii.Ascii true false false false false true true false) (many n) end.
Lemma many_inj n : forall m, many n = many m -> n = m.
Proof. induction n as [| n IH]; intros [| m] H; cbn in H; try discriminate; [reflexivity | destruct m; discriminate | destruct n; discriminate |]. injection H as H. f_equal. auto. Qed.
Lemma names_collide finish : exists a b, a <> b /\ name_id finish a = name_id finish b.
Proof.
  destruct (pigeonhole (Z.to_nat 4294967296) (fun n => name_id finish (many n))) as (i & j & L & E).
  { intros n. rewrite Z2Nat.id by lia. apply name_id_range. }
  exists (many i), (many j). split; [intros H; apply many_inj in H; lia | exact E].
Qed.
Lemma newest_functional i hs r : newest_handler i hs r -> forall r', newest_handler i hs r' -> r = r'.
Proof. induction 1; intros r' H'; inversion H'; subst; try contradiction; auto. Qed.

Lemma other_arguments finish n args args' tag tag' : args <> args' ->
  answering finish [(mkInstance n args, tag); (mkInstance n args', tag')] (mkInstance n args') = Some tag /\
  newest_handler (mkInstance n args') [(mkInstance n args, tag); (mkInstance n args', tag')] (Some tag').
Proof.
  intros N. split.
  - rewrite answering_cons. cbn [iname]. rewrite Z.eqb_refl. reflexivity.
  - constructor; [intros E; injection E as E; contradiction | constructor].
Qed.
Lemma other_name finish : exists a b tag, a <> b /\ answering finish [(mkInstance a [], tag)] (mkInstance b []) = Some tag /\
  newest_handler (mkInstance b []) [(mkInstance a [], tag)] None.
Proof.
  destruct (names_collide finish) as (a & b & N & E). exists a, b, 1. split; [exact N|]. split.
  - rewrite answering_cons. cbn [iname]. rewrite E, Z.eqb_refl. reflexivity.
  - constructor; [intros H; injection H as H; contradiction | constructor].
Qed.
Lemma missing_arm finish a o b p : arm_of finish [(a, o)] b p = Some 0%nat.
Proof. reflexivity. Qed.
Lemma arm_first finish ability op arms n : first_arm (ability, op) arms n ->
  tells_apart (op_word finish) ((ability, op) :: arms) -> arm_of finish arms ability op = Some n.
Proof. intros H T. exact (dispatch_first finish (ability, op) arms n H T). Qed.
