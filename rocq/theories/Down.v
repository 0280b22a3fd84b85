(** The part of the state of a container which belongs to the indices from some index on.
    The operations of an index see this part only. *)
From Verif Require Import Prelude Layer LayerBase Stack View.
Set Implicit Arguments.

Section Down.
Variable V : Type.
Variable throws : nat -> bool.
Variable pick : list node -> node.
Variable hd : node.
Variable W : World V.
Notation stack := (stack throws pick hd W).
Variable cs2 : list (code V).

(** the index following [cs1] and its supers *)
Fixpoint down (cs1 : list (code V)) : St (stack (cs1 ++ cs2)) -> St (stack cs2) :=
  match cs1 return St (stack (cs1 ++ cs2)) -> St (stack cs2) with
  | [] => fun s => s
  | c :: cs1 => fun s => down cs1 (below throws pick hd c (stack (cs1 ++ cs2)) s)
  end.

Lemma down_bget cs1 s : bget (stack cs2) (down cs1 s) = bget (stack (cs1 ++ cs2)) s.
Proof. induction cs1 as [|c cs1 IH]; cbn [down app]; auto. rewrite IH. now destruct c. Qed.
Lemma down_cget cs1 s : cget (stack cs2) (down cs1 s) = cget (stack (cs1 ++ cs2)) s.
Proof. induction cs1 as [|c cs1 IH]; cbn [down app]; auto. rewrite IH. now destruct c. Qed.

Variable AW : Type.
Variable wrep : WS W -> AW -> Prop.
Variable wready : node -> AW -> Prop.
Variable wrem : node -> AW -> AW.
Notation spec := (spec hd wready wrem).
Notation srep := (srep throws pick hd W wrep wready wrem).

Fixpoint adown (cs1 : list (code V)) : AV (spec (cs1 ++ cs2)) -> AV (spec cs2) :=
  match cs1 return AV (spec (cs1 ++ cs2)) -> AV (spec cs2) with
  | [] => fun a => a
  | c :: cs1 => fun a => adown cs1 (snd a)
  end.
Lemma down_rep cs1 s a : srep (cs1 ++ cs2) s a -> srep cs2 (down cs1 s) (adown cs1 a).
Proof.
  induction cs1 as [|c cs1 IH]; cbn [down adown app]; auto. intros R. apply IH.
  exact (@below_ok V throws pick hd c _ _ _ _ _ R).
Qed.
Lemma down_aok cs1 vl a : aok (spec (cs1 ++ cs2)) vl a -> aok (spec cs2) vl (adown cs1 a).
Proof. induction cs1 as [|c cs1 IH]; cbn [adown app]; auto. intros (_ & R). auto. Qed.
Lemma down_els cs1 a i : nth_error (els (spec (cs1 ++ cs2)) a) (length cs1 + i) = nth_error (els (spec cs2) (adown cs1 a)) i.
Proof. induction cs1 as [|c cs1 IH]; cbn; auto. Qed.
End Down.
