(** Without aliases the tree itself is read back; aliases are resolved to what they stand for. *)
From Coq Require Import Lia.
From Verif Require Export TextMain.

Lemma map_same : forall A (f : A -> A) l, (forall x, In x l -> f x = x) -> map f l = l.
Proof. induction l; cbn; intros; [reflexivity|]. f_equal; auto. Qed.
Lemma abbreviated_none : forall n, (forall t, (wt t <= n)%nat -> abbreviated (fun _ => None) t = t) /\ (forall a, (wa a <= n)%nat -> abbreviated_attr (fun _ => None) a = a).
Proof.
  induction n as [|n [IHt IHa]].
  { split; intros; [pose proof (wt_pos t)|pose proof (wa_pos a)]; lia. }
  split.
  - intros [d m ps ats|a] H; [|reflexivity]. cbn [abbreviated]. f_equal.
    + apply map_same. intros x Hx. apply IHt. cbn in H. pose proof (sum_in _ wt ps x Hx). lia.
    + apply map_same. intros [k v] Hx. f_equal. apply IHa. cbn in H. pose proof (sum_in _ (fun kv : text * attr => match kv with (_, v) => wa v end) ats _ Hx). cbn in H0. lia.
  - intros a H. destruct a; try reflexivity.
    + cbn [abbreviated_attr]. f_equal. apply IHt. cbn in H. lia.
    + cbn [abbreviated_attr]. f_equal. apply map_same. intros x Hx. apply IHa. change (wa (List l)) with (3 + list_sum (map wa l))%nat in H. pose proof (sum_in _ wa l x Hx). lia.
Qed.
Lemma read_back_type : forall alias show finite read, decimal_floats show finite read -> forall t, type_ok alias finite t ->
  exists n, forall fuel rest, (n <= fuel)%nat -> after_type alias t rest -> raw_type read fuel (write_type alias show finite t ++ rest) = Ok (abbreviated alias t) rest.
Proof. intros. exists (wt t). intros. eapply (proj1 (round_trip alias show finite read H (wt t))); eauto. apply after_ends; auto. Qed.
Lemma read_back_attr : forall alias show finite read, decimal_floats show finite read -> forall a, attr_ok alias finite a ->
  exists n, forall fuel rest, (n <= fuel)%nat -> after_attr alias a rest -> raw_attr read fuel (write_attr alias show finite a ++ rest) = Ok (abbreviated_attr alias a) rest.
Proof. intros. exists (wa a). intros. eapply (proj2 (round_trip alias show finite read H (wa a))); eauto. apply after_ends_attr; auto. Qed.
Lemma read_back_plain : forall show finite read, decimal_floats show finite read ->
  (forall t, type_ok (fun _ => None) finite t -> exists n, forall fuel, (n <= fuel)%nat -> raw_type read fuel (write_type (fun _ => None) show finite t) = Ok t [])
  /\ (forall a, attr_ok (fun _ => None) finite a -> exists n, forall fuel, (n <= fuel)%nat -> raw_attr read fuel (write_attr (fun _ => None) show finite a) = Ok a []).
Proof.
  intros. split.
  - intros t Ht. destruct (read_back_type _ _ _ _ H t Ht) as (n & E). exists n. intros fuel Hf. rewrite <- (app_nil_r (write_type _ _ _ t)). rewrite E; auto.
    + f_equal. eapply (proj1 (abbreviated_none (wt t))). auto.
    + unfold after_type. destruct t as [d m [|] [|]|]; try exact I; try (intros c r Er; discriminate). intros w r Er. destruct w; discriminate.
  - intros a Ha. destruct (read_back_attr _ _ _ _ H a Ha) as (n & E). exists n. intros fuel Hf. rewrite <- (app_nil_r (write_attr _ _ _ a)). rewrite E; auto.
    + f_equal. eapply (proj2 (abbreviated_none (wa a))). auto.
    + destruct a; cbn [after_attr]; auto; try (intros c r Er; discriminate). unfold after_type. destruct t as [d m [|] [|]|]; try exact I; try (intros c r Er; discriminate). intros w r Er. destruct w; discriminate.
Qed.
Lemma printed_apart : forall show finite read, decimal_floats show finite read ->
  (forall t u, type_ok (fun _ => None) finite t -> type_ok (fun _ => None) finite u -> write_type (fun _ => None) show finite t = write_type (fun _ => None) show finite u -> t = u)
  /\ (forall a b, attr_ok (fun _ => None) finite a -> attr_ok (fun _ => None) finite b -> write_attr (fun _ => None) show finite a = write_attr (fun _ => None) show finite b -> a = b).
Proof.
  intros show finite read H. destruct (read_back_plain _ _ _ H) as (A & B). split.
  - intros t u Ht Hu E. destruct (A t Ht) as (n & En). destruct (A u Hu) as (m & Em). specialize (En (n + m)%nat ltac:(lia)). specialize (Em (n + m)%nat ltac:(lia)). rewrite E in En. congruence.
  - intros t u Ht Hu E. destruct (B t Ht) as (n & En). destruct (B u Hu) as (m & Em). specialize (En (n + m)%nat ltac:(lia)). specialize (Em (n + m)%nat ltac:(lia)). rewrite E in En. congruence.
Qed.

