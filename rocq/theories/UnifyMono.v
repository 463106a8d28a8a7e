(** More fuel never changes a result. *)
From Coq Require Import Permutation.
From Verif Require Export UnifyModel SubstProofs.

Definition ole {A} (x y : option A) : Prop := forall a, x = Some a -> y = Some a.

Lemma ole_refl {A} (x : option A) : ole x x.
Proof. intros a H. exact H. Qed.

Lemma ole_bind {A B} (x y : option A) (f g : A -> option B) :
  ole x y -> (forall a, ole (f a) (g a)) -> ole (obind x f) (obind y g).
Proof.
  intros H G b E. apply obind_some in E as [a [E1 E2]]. apply obind_some. exists a. split; [apply H, E1 | apply G, E2].
Qed.

Lemma ole_traverse {A B} (f g : A -> option B) l : (forall a, ole (f a) (g a)) -> ole (otraverse f l) (otraverse g l).
Proof.
  intros H l' E. apply otraverse_some in E. apply otraverse_some. revert E. apply Forall2_impl. intros x y. apply H.
Qed.

Lemma ole_row f g r : (forall a, ole (f a) (g a)) -> ole (omap_row f r) (omap_row g r).
Proof.
  intros H. unfold omap_row. apply ole_bind; [|intros; apply ole_refl]. apply ole_traverse. intros e.
  apply ole_bind; [apply ole_traverse; exact H | intros; apply ole_refl].
Qed.

Lemma tapply_step ts rs n : forall t, ole (tapply n ts rs t) (tapply (S n) ts rs t).
Proof.
  induction n as [|n IH]; intros t; [intros a H; discriminate|].
  destruct t as [p|i|sc i|v|d nm args|ps q e c|xs|c xs|a q e|];
    cbn [tapply]; cbv zeta; try apply ole_refl; fold (tapply n ts rs);
    change (match n with 0 => _ | S _ => _ end) with (tapply n ts rs) in *.
  all: try (destruct (tget ts v); [apply IH | apply ole_refl]).
  all: repeat (apply ole_bind; [first [apply ole_traverse; exact IH | apply IH | apply ole_row; exact IH] | intros ?]);
    apply ole_refl.
Qed.
