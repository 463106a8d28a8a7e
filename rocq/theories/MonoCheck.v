(** Decision procedures for the hypotheses, for examples. *)
From Verif Require Export MonoDone.
From Verif Require Import SubstProofs.
From Coq Require Import Lia.
Local Open Scope list_scope.

Fixpoint distinctb {A} (eqb : A -> A -> bool) (l : list A) : bool := match l with [] => true | a :: l => negb (existsb (eqb a) l) && distinctb eqb l end.
Lemma distinctb_ok {A} (eqb : A -> A -> bool) l : (forall a b, eqb a b = true <-> a = b) -> distinctb eqb l = true -> NoDup l.
Proof.
  intros E. induction l as [|a l IH]; cbn; intros D; [constructor|]. apply andb_true_iff in D as [D1 D2]. constructor; auto. intros I.
  apply negb_true_iff in D1. rewrite <- not_true_iff_false in D1. apply D1, existsb_exists. exists a. split; auto. apply E; auto.
Qed.
Fixpoint first_orderb (t : ty) : bool :=
  match t with
  | TApp _ _ | TCont _ _ _ => false
  | TNamed _ _ ts | TTuple ts => forallb first_orderb ts
  | TFunc ps r _ _ => forallb first_orderb ps && first_orderb r
  | _ => true
  end.
Lemma first_orderb_ok t : first_orderb t = true -> first_order t.
Proof.
  assert (L : forall ts, Forall (fun t => first_orderb t = true -> first_order t) ts -> forallb first_orderb ts = true -> Forall first_order ts).
  { induction 1; cbn; intros F; constructor; apply andb_true_iff in F; try apply H; try apply IHForall; tauto. }
  induction t as [p|i|sc i|i|d n args IH|ps r e k IHp IHr IHe|xs IH|h xs IHc IH|a r e IHa IHr IHe|] using ty_induct; cbn [first_orderb first_order]; auto; try discriminate.
  - intros F. apply first_order_list. auto.
  - intros F. apply andb_true_iff in F as [F1 F2]. split; auto. apply first_order_list. auto.
  - intros F. apply first_order_list. auto.
Qed.
Definition keys_plain {A} (t : table A) : bool := forallb (fun p => match snd (fst p) with None => true | Some _ => false end) t.
Lemma keys_plain_ok {A} (t : table A) b v : keys_plain t = true -> lookup t (b, Some v) = None.
Proof.
  induction t as [|[[k w] a] t IH]; cbn; auto. intros F. apply andb_true_iff in F as [F1 F2]. destruct w; [discriminate|]. unfold nid_eqb. cbn [fst snd]. rewrite andb_false_r. auto.
Qed.
Definition check (types : list (string * scheme)) (ds : list decl) (m : meta) : bool :=
  forallb (fun n => negb (String.eqb n "") && negb (mentions "$" n)) (flat_map names_of ds) && forallb (fun p => negb (mentions "$" (fst p))) types &&
  distinctb String.eqb (List.map fst types) && forallb (fun p => first_orderb (sc_body (snd p))) types &&
  (forallb (fun p => forallb (fun i : nid => match snd i with None => true | Some _ => false end) (semantic_node_ids (snd p))) (source_functions ds) &&
  distinctb nid_eqb (flat_map (fun p => nodup (fun a b => match nid_eqb a b as x return nid_eqb a b = x -> _ with true => fun E => left (proj1 (nid_eqb_eq a b) E)
    | false => fun E => right (fun Q => eq_true_false_abs _ (proj2 (nid_eqb_eq a b) Q) E) end eq_refl) (semantic_node_ids (snd p))) (source_functions ds))) &&
  (keys_plain (node_types m) && keys_plain (callees m) && keys_plain (handlers m) && keys_plain (performs m) && keys_plain (lambdas m) &&
   forallb (fun i : nid => match snd i with None => true | Some _ => false end) (exhaustive m)) &&
  forallb (fun p => forallb (fun v => match lookup (callees m) (fst v) with Some t => ty_eqb t (rty (snd v)) | None => true end) (visit_expr (f_body (snd p)))) (source_functions ds).
Lemma check_ok types ds m : check types ds m = true -> source_ok types ds m.
Proof.
  unfold check. rewrite !andb_true_iff. intros [[[[[[C1 C2] C3] C4] [C5 C6]] [[[[[T1 T2] T3] T4] T5] T6]] C7]. rewrite forallb_forall in C1, C2, C4, C5, C7, T6. split.
  - intros n I. apply C1 in I. apply andb_true_iff in I as [A B]. apply negb_true_iff in A, B. apply String.eqb_neq in A. split; auto.
  - intros q sc I. apply C2 in I. apply negb_true_iff in I. exact I.
  - eapply distinctb_ok; [|exact C3]. apply String.eqb_eq.
  - intros q sc I. apply C4 in I. apply first_orderb_ok; auto.
  - intros path f i I N. apply C5 in I. rewrite forallb_forall in I. apply ids_node in N. apply I in N. destruct (snd i); [discriminate|auto].
  - intros l1 p f l2 q g l3 i E N1 N2. apply distinctb_ok in C6; [|apply nid_eqb_eq]. rewrite E in C6. rewrite flat_map_app in C6. cbn [flat_map] in C6. rewrite flat_map_app in C6. cbn [flat_map snd] in C6.
    apply ids_node in N1, N2. revert C6. set (D := fun a b : nid => _). intros C6. clearbody D. rewrite <- (nodup_In D) in N1, N2.
    revert N1 N2 C6. generalize (nodup D (semantic_node_ids f)) as F. generalize (nodup D (semantic_node_ids g)) as G. intros G F N1 N2 C6. 
    assert (ND : NoDup (F ++ (flat_map (fun p => nodup D (semantic_node_ids (snd p))) l2 ++ G ++ flat_map (fun p => nodup D (semantic_node_ids (snd p))) l3))).
    { revert C6. induction (flat_map (fun p => nodup D (semantic_node_ids (snd p))) l1) as [|a b IH]; cbn; auto. intros N. inversion N; auto. }
    apply in_split in N1 as [f1 [f2 ->]]. rewrite <- app_assoc in ND. cbn in ND. apply NoDup_remove_2 in ND. apply ND. rewrite !in_app_iff. auto.
  - intros b v. repeat split; try (apply keys_plain_ok; auto). intros I. apply T6 in I. discriminate.
  - intros path f i r t I U L. apply C7 in I. rewrite forallb_forall in I. apply visit_uses in U. apply I in U. cbn [fst snd] in U. rewrite L in U. apply ty_eqb_eq; auto.
Qed.
(** A list that contains all needed instances. *)
Definition closedb (types : list (string * scheme)) (ds : list decl) (L : list inst) : bool :=
  forallb (fun p => forallb (fun v => match wanted types (snd v) with Some i => knows L i | None => true end) (visit_expr (f_body (snd p)))) (source_functions ds) &&
  forallb (fun i => match func_at ds (fst i) with
    | Some f => forallb (fun v => match wanted types (at_args (snd i) (snd v)) with Some j => knows L j | None => true end) (visit_expr (f_body f)) | None => true end) L.
Lemma closedb_ok types ds m L : source_ok types ds m -> closedb types ds L = true -> forall i, needed types ds i -> In i L.
Proof.
  intros SO. unfold closedb. rewrite andb_true_iff, !forallb_forall. intros [C1 C2] i N. induction N as [path f n r i I U A|q args f n r i N IH F U A].
  - apply C1 in I. rewrite forallb_forall in I. apply visit_uses in U. apply I in U. cbn [snd] in U. apply (wanted_asks types (so_keys _ _ _ SO)) in A. rewrite A in U. apply knows_in; auto.
  - apply C2 in IH. cbn [fst snd] in IH. apply (func_at_iff types ds m SO) in F. rewrite F in IH. rewrite forallb_forall in IH. apply visit_uses in U. apply IH in U. cbn [snd] in U.
    apply (wanted_asks types (so_keys _ _ _ SO)) in A. rewrite A in U. apply knows_in; auto.
Qed.
Lemma separates_ok variant types ds m L : source_ok types ds m -> closedb types ds L = true ->
  forallb (fun i => forallb (fun j => negb (String.eqb (fst i) (fst j)) || negb (N.eqb (variant (snd i)) (variant (snd j))) || args_eqb (snd i) (snd j)) L) L = true -> separates variant types ds.
Proof.
  intros SO C F q a b N1 N2 V. apply (closedb_ok types ds m L SO C) in N1, N2. rewrite forallb_forall in F. apply F in N1. rewrite forallb_forall in N1. apply N1 in N2. cbn [fst snd] in N2.
  rewrite String.eqb_refl, V, N.eqb_refl in N2. apply args_eqb_eq; auto.
Qed.
