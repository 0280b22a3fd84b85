(** The same stack of indices over another world: a container alone in its memory, and the same
    container while elements are moved to it from another container. *)
From Verif Require Import Prelude Layer LayerBase Stack View ContOk Iops.
Set Implicit Arguments.

Section Conv.
Variable V : Type.
Variable throws : nat -> bool.
Variable pick : list node -> node.
Variable hd : node.
Notation stack := (stack throws pick hd).
Notation layer_of := (layer_of throws pick hd).

Fixpoint conv (W W' : World V) (cs : list (code V)) : St (stack W cs) -> WS W' -> St (stack W' cs) :=
  match cs return St (stack W cs) -> WS W' -> St (stack W' cs) with
  | [] => fun s w => (fst s, w)
  | c :: cs =>
    match c return St (layer_of c (stack W cs)) -> WS W' -> St (layer_of c (stack W' cs)) with
    | Ordered _ _ _ _ _ => fun s w => (fst s, @conv W W' cs (snd s) w)
    | Sequenced _ _ _ => fun s w => (fst s, @conv W W' cs (snd s) w)
    | RandomAccess _ _ => fun s w => (fst s, @conv W W' cs (snd s) w)
    | Hashed _ _ _ _ _ _ _ => fun s w => (fst s, @conv W W' cs (snd s) w)
    end
  end.

Lemma conv_wld W W' cs s w : swld throws pick hd W' cs (@conv W W' cs s w) = w.
Proof. induction cs as [|c cs IH]; [reflexivity|]. destruct c; cbn in *; apply IH. Qed.
Lemma conv_bget W W' cs s w : bget (stack W' cs) (@conv W W' cs s w) = wget W' w.
Proof. rewrite wld_get. now rewrite conv_wld. Qed.
Lemma conv_cget W W' cs s w : cget (stack W' cs) (@conv W W' cs s w) = cget (stack W cs) s.
Proof. induction cs as [|c cs IH]; [reflexivity|]. destruct c; cbn in *; apply IH. Qed.
Lemma conv_id W cs s : @conv W W cs s (swld throws pick hd W cs s) = s.
Proof. induction cs as [|c cs IH]; [now destruct s|]. destruct c, s; cbn in *; f_equal; apply IH. Qed.
Lemma conv_conv W W' W'' cs s w' w'' : @conv W' W'' cs (@conv W W' cs s w') w'' = @conv W W'' cs s w''.
Proof. induction cs as [|c cs IH]; [reflexivity|]. destruct c, s; cbn in *; f_equal; apply IH. Qed.

(** abstract states *)
Section A.
Variables W W' : World V.
Variables AW AW' : Type.
Variable wrep : WS W -> AW -> Prop.
Variable wready : node -> AW -> Prop.
Variable wrem : node -> AW -> AW.
Variable wrep' : WS W' -> AW' -> Prop.
Variable wready' : node -> AW' -> Prop.
Variable wrem' : node -> AW' -> AW'.
Notation spec := (spec hd wready wrem).
Notation spec' := (Stack.spec hd wready' wrem').
Notation srep := (srep throws pick hd W wrep wready wrem).
Notation srep' := (Stack.srep throws pick hd W' wrep' wready' wrem').

Fixpoint cona (cs : list (code V)) : AV (spec cs) -> AW' -> AV (spec' cs) :=
  match cs return AV (spec cs) -> AW' -> AV (spec' cs) with
  | [] => fun _ w => w
  | c :: cs => fun a w => (fst a, cona cs (snd a) w)
  end.
Lemma cona_wld cs a w : sworld hd wready' wrem' cs (cona cs a w) = w.
Proof. induction cs as [|c cs IH]; [reflexivity|]. cbn in *. apply IH. Qed.
Lemma cona_els cs a w : els (spec' cs) (cona cs a w) = els (spec cs) a.
Proof. induction cs as [|c cs IH]; [reflexivity|]. cbn in *. now rewrite IH. Qed.
Lemma cona_ok cs vl a w : aok (spec cs) vl a -> aok (spec' cs) vl (cona cs a w).
Proof. induction cs as [|c cs IH]; [easy|]. cbn in *. intros (A & B). auto. Qed.
Lemma conv_rep cs s a w w' : srep cs s a -> wrep' w w' -> srep' cs (@conv W W' cs s w) (cona cs a w').
Proof.
  induction cs as [|c cs IH]; [easy|]. destruct c; cbn in *; intros (H & R) R'; (split; [exact H|apply IH; auto]).
Qed.

Variable dv : V.
Notation good cs := (@ContOk.good V dv hd (stack W cs) (spec cs) (srep cs)).
Notation good' cs := (@ContOk.good V dv hd (stack W' cs) (spec' cs) (srep' cs)).
Lemma conv_good cs s a lk out w w' : good cs s a lk out -> wrep' w w' -> wget W' w = bget (stack W cs) s ->
  good' cs (@conv W W' cs s w) (cona cs a w') lk out.
Proof.
  intros [R I C A M] R' E. split.
  - now apply conv_rep.
  - rewrite conv_bget, cona_els, E. exact I.
  - now rewrite conv_cget.
  - rewrite conv_bget, E. now apply cona_ok.
  - rewrite conv_bget, E. exact M.
Qed.
End A.

(** running an operation of the world *)
Definition in_world (W : World V) (cs : list (code V)) {A} (m : M (WS W) A) : M (St (stack W cs)) A :=
  lensM (swld throws pick hd W cs) (fun w s => @conv W W cs s w) m.

(** ++ of the iterators of index number [i] of a container *)
Section Next.
Variable W : World V.
Fixpoint next_at (cs : list (code V)) (i : nat) (x : node) : M (St (stack W cs)) node :=
  match cs return M (St (stack W cs)) node with
  | [] => ub
  | c :: cs => match i with
               | O => i_next throws pick hd c (stack W cs) x
               | S i => lift throws pick hd c (stack W cs) (next_at cs i x)
               end
  end.
Variable AW : Type.
Variable wrep : WS W -> AW -> Prop.
Variable wready : node -> AW -> Prop.
Variable wrem : node -> AW -> AW.
Notation spec := (spec hd wready wrem).
Notation srep := (srep throws pick hd W wrep wready wrem).
Lemma next_at_ok cs : forall i s a l l1 x l2, srep cs s a -> Forall (fun l => length l <= cget (stack W cs) s) (els (spec cs) a) ->
  nth_error (els (spec cs) a) i = Some l -> l = l1 ++ x :: l2 -> next_at cs i x s = Ret (List.hd hd l2) s.
Proof.
  induction cs as [|c cs IH]; intros i s a l l1 x l2 R F E El; [destruct i; discriminate|].
  cbn in F. inversion F as [|? ? F1 F2]; subst. destruct i as [|i]; cbn [next_at nth_error] in *; cbn in E.
  - injection E as E. eapply i_next_ok; [exact R|exact E|exact F1].
  - assert (R2 := @below_ok V throws pick hd c _ _ _ _ _ R). rewrite lift_eq.
    rewrite (IH i _ (snd a) (l1 ++ x :: l2) l1 x l2 R2); auto.
    + destruct c, s; cbn; reflexivity.
    + rewrite below_size. exact F2.
Qed.
End Next.
End Conv.
