(** Operations of one index of a container, seen as operations of the container. *)
From Verif Require Import Prelude Layer LayerBase Stack View Down Iops.
Set Implicit Arguments.

Section Up.
Variable V : Type.
Variable throws : nat -> bool.
Variable pick : list node -> node.
Variable hd : node.
Variable W : World V.
Notation stack := (stack throws pick hd W).
Notation down := (@down V throws pick hd W).
Variable cs2 : list (code V).

(** [m], an operation of the index following [cs1] *)
Fixpoint up {A} (m : M (St (stack cs2)) A) (cs1 : list (code V)) : M (St (stack (cs1 ++ cs2))) A :=
  match cs1 return M (St (stack (cs1 ++ cs2))) A with
  | [] => m
  | c :: cs1 => lift throws pick hd c (stack (cs1 ++ cs2)) (up m cs1)
  end.
(** the state with the part belonging to the indices [cs2] replaced *)
Fixpoint putd (cs1 : list (code V)) : St (stack (cs1 ++ cs2)) -> St (stack cs2) -> St (stack (cs1 ++ cs2)) :=
  match cs1 return St (stack (cs1 ++ cs2)) -> St (stack cs2) -> St (stack (cs1 ++ cs2)) with
  | [] => fun _ t => t
  | c :: cs1 => fun s t => put_below throws pick hd c (stack (cs1 ++ cs2)) s
                             (putd cs1 (below throws pick hd c (stack (cs1 ++ cs2)) s) t)
  end.

Lemma lift_put (c : code V) (L : Layer V) A (m : M (St L) A) (s : St (layer_of throws pick hd c L)) : lift throws pick hd c L m s =
  match m (below throws pick hd c L s) with
  | Ret r t => Ret r (put_below throws pick hd c L s t)
  | Exn t => Exn (put_below throws pick hd c L s t)
  | UB => UB
  end.
Proof. destruct c; cbn; unfold supM, lensM; now destruct (m (snd s)). Qed.
Lemma up_eq A (m : M (St (stack cs2)) A) cs1 s : up m cs1 s =
  match m (down cs2 cs1 s) with
  | Ret r t => Ret r (putd cs1 s t)
  | Exn t => Exn (putd cs1 s t)
  | UB => UB
  end.
Proof.
  induction cs1 as [|c cs1 IH]; cbn [up putd app Down.down].
  - now destruct (m s).
  - rewrite lift_put, IH. now destruct (m _).
Qed.
Lemma below_put (c : code V) (L : Layer V) (s : St (layer_of throws pick hd c L)) t : below throws pick hd c L (put_below throws pick hd c L s t) = t.
Proof. now destruct c. Qed.
Lemma put_self (c : code V) (L : Layer V) (s : St (layer_of throws pick hd c L)) : put_below throws pick hd c L s (below throws pick hd c L s) = s.
Proof. destruct c; symmetry; apply surjective_pairing. Qed.
Lemma down_putd cs1 s t : down cs2 cs1 (putd cs1 s t) = t.
Proof. revert s. induction cs1 as [|c cs1 IH]; intros s; cbn [putd Down.down app]; auto. now rewrite below_put. Qed.
Lemma putd_self cs1 s : putd cs1 s (down cs2 cs1 s) = s.
Proof. induction cs1 as [|c cs1 IH]; cbn [putd Down.down app]; auto. rewrite IH. apply put_self. Qed.
Lemma at_up cs1 o s : at_index throws pick hd W (cs1 ++ cs2) (length cs1) o s = up (at_index throws pick hd W cs2 0 o) cs1 s.
Proof.
  revert s. induction cs1 as [|c cs1 IH]; intros s; cbn [up app length at_index]; auto.
  rewrite !lift_put. now rewrite IH.
Qed.
End Up.
