(** C19: the parent pointer and the colour of a node of an ordered index in one word.
    Source: /repo/include/boost/multi_index/detail/ord_index_node.hpp:131-220 (ordered_index_node_compressed_base) *)
From Coq Require Import NArith.
From Verif Require Import Prelude OrdModel.
Set Implicit Arguments.
Local Open Scope N_scope.

Section Word.
(** number of binary digits of uintptr_type *)
Variable w : N.
Hypothesis w_pos : 0 < w.
Definition word (r : N) : Prop := r < 2 ^ w.
(** ~uintptr_type(1) *)
Definition not1 : N := N.lnot 1 w.
(** enum ordered_index_color{red=false,black=true}, 64 *)
Definition of_color (c : color) : N := match c with Red => 0 | Black => 1 end.
Definition to_color (n : N) : color := if n =? 0 then Red else Black.
(** color_ref::operator ordered_index_color, 148-151; color()const, 200-203 *)
Definition get_color (r : N) : color := to_color (N.land r 1).
(** color_ref::operator=(ordered_index_color), 153-158 *)
Definition set_color (c : color) (r : N) : N := let r := N.land r not1 in N.lor r (of_color c).
(** parent_ref::operator pointer, 174-177; parent()const, 206-209 *)
Definition get_parent (r : N) : N := N.land r not1.
(** parent_ref::operator=(pointer), 179-183 *)
Definition set_parent (p : N) (r : N) : N := N.lor p (N.land r 1).

(** A memory of words parentcolor_, by the address of the node, and the four assignments: from a value, and
    from color() or parent() of a node, which may be the same one (160-163, 185-188) *)
Inductive asg :=
| Color (x : node) (c : color)
| Parent (x : node) (p : N)
| ColorOf (x y : node)
| ParentOf (x y : node).
Definition put (m : node -> N) (x : node) (r : N) : node -> N := fun y => if Nat.eqb y x then r else m y.
Definition do_asg (m : node -> N) (a : asg) : node -> N :=
  match a with
  | Color x c => put m x (set_color c (m x))
  | Parent x p => put m x (set_parent p (m x))
  | ColorOf x y => put m x (set_color (get_color (m y)) (m x))
  | ParentOf x y => put m x (set_parent (get_parent (m y)) (m x))
  end.

(** The same with a field for each: ord_index_node.hpp:83-111 (ordered_index_node_std_base) *)
Record fields := mkF { f_color : node -> color; f_parent : node -> N }.
Definition do_fields (f : fields) (a : asg) : fields :=
  match a with
  | Color x c => mkF (fun y => if Nat.eqb y x then c else f_color f y) (f_parent f)
  | Parent x p => mkF (f_color f) (fun y => if Nat.eqb y x then p else f_parent f y)
  | ColorOf x z => mkF (fun y => if Nat.eqb y x then f_color f z else f_color f y) (f_parent f)
  | ParentOf x z => mkF (f_color f) (fun y => if Nat.eqb y x then f_parent f z else f_parent f y)
  end.
(** pointers to nodes are even and fit in a word *)
Definition pointer (p : N) : Prop := word p /\ N.even p = true.
Definition fine (a : asg) : Prop := match a with Parent _ p => pointer p | _ => True end.

Lemma bit0_pointer p : pointer p -> N.testbit p 0 = false.
Proof. intros (_ & E). rewrite N.bit0_odd. rewrite <- N.negb_even. now rewrite E. Qed.
Lemma word_bits r i : word r -> w <= i -> N.testbit r i = false.
Proof.
  intros H L. destruct (N.eq_dec r 0) as [->|Nz]; [apply N.bits_0|]. apply N.bits_above_log2.
  apply N.log2_lt_pow2 in H; lia.
Qed.
Lemma bits_word r : (forall i, w <= i -> N.testbit r i = false) -> word r.
Proof.
  intros H. unfold word. destruct (N.eq_dec r 0) as [->|Nz]; [apply N.neq_0_lt_0, N.pow_nonzero; lia|].
  apply N.log2_lt_pow2; [lia|]. destruct (N.le_gt_cases w (N.log2 r)) as [L|L]; auto.
  specialize (H _ L). rewrite N.bit_log2 in H by auto. discriminate.
Qed.
Lemma not1_bits i : N.testbit not1 i = (negb (i =? 0) && (i <? w))%bool.
Proof.
  unfold not1. destruct (N.ltb_spec i w) as [L|L].
  - rewrite N.lnot_spec_low by auto. destruct i as [|i]; [reflexivity|]. cbn [N.eqb negb andb]. destruct i; reflexivity.
  - rewrite N.lnot_spec_high by auto. rewrite andb_false_r. destruct i as [|i]; [lia|]. destruct i; reflexivity.
Qed.
Lemma one_bits i : N.testbit 1 i = (i =? 0).
Proof. destruct i as [|i]; [reflexivity|destruct i; reflexivity]. Qed.
Lemma color_bits c i : N.testbit (of_color c) i = ((i =? 0) && match c with Red => false | Black => true end)%bool.
Proof. destruct c; cbn [of_color]; [rewrite N.bits_0, andb_false_r|rewrite one_bits, andb_true_r]; reflexivity. Qed.
Lemma color_bit r : get_color r = if N.testbit r 0 then Black else Red.
Proof.
  unfold get_color, to_color. replace (N.land r 1) with (N.b2n (N.testbit r 0)); [now destruct (N.testbit r 0)|].
  apply N.bits_inj. intros i. rewrite N.land_spec, one_bits. destruct (N.eqb_spec i 0) as [->|Ne].
  - now rewrite N.b2n_bit0, andb_true_r.
  - rewrite andb_false_r. destruct (N.testbit r 0); cbn [N.b2n]; [rewrite one_bits; now apply N.eqb_neq|apply N.bits_0].
Qed.

Lemma set_color_color c r : get_color (set_color c r) = c.
Proof. rewrite color_bit. unfold set_color. rewrite N.lor_spec, N.land_spec, not1_bits, color_bits. cbn. rewrite andb_false_r. now destruct c. Qed.
Lemma set_parent_color p r : pointer p -> get_color (set_parent p r) = get_color r.
Proof. intros P. rewrite !color_bit. unfold set_parent. rewrite N.lor_spec, N.land_spec, bit0_pointer, one_bits by auto. cbn. now rewrite andb_true_r. Qed.
Lemma set_color_parent c r : get_parent (set_color c r) = get_parent r.
Proof.
  unfold get_parent, set_color. apply N.bits_inj. intros i. rewrite !N.land_spec, N.lor_spec, N.land_spec, not1_bits, color_bits.
  destruct (i =? 0), (i <? w), (N.testbit r i), c; reflexivity.
Qed.
Lemma set_parent_parent p r : pointer p -> get_parent (set_parent p r) = p.
Proof.
  intros P. unfold get_parent, set_parent. apply N.bits_inj. intros i. rewrite N.land_spec, N.lor_spec, N.land_spec, not1_bits, one_bits.
  destruct (N.eqb_spec i 0) as [->|Ne]; [rewrite bit0_pointer by auto; now rewrite andb_false_r|].
  rewrite andb_false_r, orb_false_r. cbn. destruct (N.ltb_spec i w) as [L|L]; [apply andb_true_r|].
  rewrite andb_false_r. symmetry. apply word_bits; auto. apply P.
Qed.
Lemma get_parent_pointer r : pointer (get_parent r).
Proof.
  split.
  - apply bits_word. intros i L. unfold get_parent. rewrite N.land_spec, not1_bits.
    destruct (N.ltb_spec i w); [lia|]. now rewrite !andb_false_r.
  - rewrite <- N.negb_odd, <- N.bit0_odd. unfold get_parent. now rewrite N.land_spec, not1_bits, andb_false_r.
Qed.

(** Whatever is assigned, in whatever order, colours and parents are what they would be in separate fields. *)
Definition as_fields (m : node -> N) (f : fields) : Prop :=
  forall x, get_color (m x) = f_color f x /\ get_parent (m x) = f_parent f x.
Theorem C19_compressed m f l : as_fields m f -> Forall fine l ->
  as_fields (fold_left do_asg l m) (fold_left do_fields l f).
Proof.
  revert m f. induction l as [|a l IH]; intros m f H Fl; [exact H|]. inversion Fl as [|? ? Fa Fl']; subst. cbn [fold_left].
  apply IH; auto. clear - H Fa w_pos. intros y.
  destruct a as [x c|x p|x z|x z]; cbn [do_asg do_fields f_color f_parent fine] in *; unfold put; destruct (Nat.eqb_spec y x) as [->|];
    try apply H.
  - rewrite set_color_color, set_color_parent. split; auto. apply H.
  - rewrite set_parent_color, set_parent_parent by auto. split; auto. apply H.
  - rewrite set_color_color, set_color_parent. split; apply H.
  - rewrite set_parent_color, set_parent_parent by apply get_parent_pointer. split; apply H.
Qed.
(** every memory is the memory of some fields, so that nothing is asked of the words at the beginning *)
Theorem C19_any m : exists f, as_fields m f /\ forall x, pointer (f_parent f x).
Proof.
  exists (mkF (fun x => get_color (m x)) (fun x => get_parent (m x))). split; [intros x; cbn; auto|]. intros x. apply get_parent_pointer.
Qed.
(** words stay words *)
Theorem C19_word m l : (forall x, word (m x)) -> Forall fine l -> forall x, word (fold_left do_asg l m x).
Proof.
  revert m. induction l as [|a l IH]; intros m H Fl; [exact H|]. inversion Fl as [|? ? Fa Fl']; subst. cbn [fold_left].
  apply IH; auto. clear - H Fa w_pos. assert (C : forall c r, word r -> word (set_color c r)).
  { intros c r Hr. apply bits_word. intros i L. unfold set_color. rewrite N.lor_spec, N.land_spec, color_bits, word_bits by auto.
    destruct (N.eqb_spec i 0); [lia|reflexivity]. }
  assert (P : forall p r, pointer p -> word (set_parent p r)).
  { intros p r Hp. apply bits_word. intros i L. unfold set_parent. rewrite N.lor_spec, N.land_spec, one_bits, word_bits; auto; [|apply Hp].
    destruct (N.eqb_spec i 0); [lia|]. apply andb_false_r. }
  intros y. destruct a as [x c|x p|x z|x z]; cbn [do_asg fine] in *; unfold put; destruct (Nat.eqb y x); auto. apply P, get_parent_pointer.
Qed.
End Word.

Example C19_some :
  let l := [Parent 2%nat 48; Color 2%nat Black; ParentOf 3%nat 2%nat; ColorOf 2%nat 3%nat; Color 3%nat Black; Parent 3%nat 80; ColorOf 2%nat 2%nat; ParentOf 2%nat 3%nat; Color 3%nat Red] in
  let m := fold_left (do_asg 64) l (fun _ => 18446744073709551615) in
  Forall (fine 64) l /\ map (fun x => (get_parent 64 (m x), get_color (m x))) [2; 3; 4]%nat =
    [(80, Black); (80, Red); (18446744073709551614, Black)].
Proof. split; [repeat constructor|vm_compute; reflexivity]. Qed.
Print Assumptions C19_compressed.
Print Assumptions C19_any.
Print Assumptions C19_word.
