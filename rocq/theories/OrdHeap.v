(** Memory of ordered indices described by lists of cells: a small separation logic. *)
From Verif Require Import Prelude OrdModel OrdTree.
Set Implicit Arguments.

Lemma pc_dec : forall a b : node * cell, {a = b} + {a <> b}.
Proof. repeat decide equality. Defined.

(** expected contents of the nodes of a tree whose root has parent [p] *)
Fixpoint cells (p : node) (t : tree) : list (node * cell) :=
  match t with
  | E => []
  | T c n l x r => (x, mk (rootp l) (rootp r) p c n) :: cells x l ++ cells x r
  end.
(** parent of the hole of a context under [p] *)
Definition cpar (p : node) (k : ctx) : node :=
  match k with Top => p | CL _ _ x _ _ => x | CR _ _ _ x _ => x end.
(** contents of the nodes of a context, [q] being the root of the hole *)
Fixpoint ccells (p : node) (k : ctx) (q : node) : list (node * cell) :=
  match k with
  | Top => []
  | CL c n x r k => (x, mk q (rootp r) (cpar p k) c n) :: cells x r ++ ccells p k x
  | CR c n l x k => (x, mk (rootp l) q (cpar p k) c n) :: cells x l ++ ccells p k x
  end.

Definition wfc (h : heap) (L : list (node * cell)) : Prop :=
  NoDup (null :: map fst L) /\ Forall (fun p => h (fst p) = Some (snd p)) L.

(** ** Permutations of cell lists by counting *)
Definition cone (a x : node * cell) : nat := if pc_dec a x then 1 else 0.
Notation ccount := (count_occ pc_dec).
Lemma ccount_cons a l x : ccount (a :: l) x = cone a x + ccount l x.
Proof. unfold cone. cbn. destruct (pc_dec a x); reflexivity. Qed.
Lemma ccount_perm l l' : (forall x, ccount l x = ccount l' x) <-> Permutation l l'.
Proof. symmetry. apply Permutation_count_occ. Qed.
Lemma ccount_plug p k : forall t x,
  ccount (cells p (plug k t)) x = ccount (cells (cpar p k) t) x + ccount (ccells p k (rootp t)) x.
Proof.
  induction k as [|c n y r k IH|c n l y k IH]; intros t x; cbn [plug ccells cpar].
  - cbn. lia.
  - rewrite IH. cbn [cells rootp]. rewrite !ccount_cons, !count_occ_app. lia.
  - rewrite IH. cbn [cells rootp]. rewrite !ccount_cons, !count_occ_app. lia.
Qed.
Lemma cells_plug p k t :
  Permutation (cells p (plug k t)) (cells (cpar p k) t ++ ccells p k (rootp t)).
Proof. apply ccount_perm. intros. rewrite count_occ_app. apply ccount_plug. Qed.
Lemma ccells_kapp p k : forall k' q x,
  ccount (ccells p (kapp k k') q) x
  = ccount (ccells (cpar p k') k q) x + ccount (ccells p k' (kroot k q)) x.
Proof.
  induction k as [|c n y r k IH|c n l y k IH]; intros k' q x; cbn [kapp ccells kroot]; auto.
  - rewrite !ccount_cons, !count_occ_app, IH.
    replace (cpar p (kapp k k')) with (cpar (cpar p k') k) by (destruct k; reflexivity). lia.
  - rewrite !ccount_cons, !count_occ_app, IH.
    replace (cpar p (kapp k k')) with (cpar (cpar p k') k) by (destruct k; reflexivity). lia.
Qed.

Ltac cred := cbn [cells ccells cpar rootp app plug kroot cl cr cp cc cs].
Ltac cexp :=
  cred; repeat (progress (rewrite ?count_occ_app, ?ccount_cons, ?ccount_plug, ?ccells_kapp; cred));
  cbn [count_occ];
  repeat match goal with
  | |- context [ccount ?A ?x] => let n := fresh "n" in set (n := ccount A x); clearbody n
  | |- context [cone ?a ?x] => let n := fresh "n" in set (n := cone a x); clearbody n
  end.
Ltac cperm := rewrite <- ccount_perm; let x := fresh "x" in intros x; cexp; lia.
(** the same using a hypothesis [H : Permutation _ _] *)
Ltac cpermh H :=
  rewrite <- ccount_perm in H; rewrite <- ccount_perm;
  let x := fresh "x" in intros x; specialize (H x);
  repeat (progress (rewrite ?count_occ_app, ?ccount_cons, ?ccount_plug, ?ccells_kapp in H; cbn in H));
  cred; repeat (progress (rewrite ?count_occ_app, ?ccount_cons, ?ccount_plug, ?ccells_kapp; cred));
  cbn [count_occ]; lia.

(** ** Reading and writing *)
Lemma wfc_perm h L L' : wfc h L -> Permutation L L' -> wfc h L'.
Proof.
  intros [N F] P. split.
  - eapply NoDup_perm; [|exact N]. constructor. now apply Permutation_map.
  - rewrite Forall_forall in *. intros p Hp. apply F. eapply Permutation_in; [symmetry|]; eauto.
Qed.
Lemma wfc_get h L x c : wfc h L -> In (x, c) L -> h x = Some c.
Proof. intros [_ F] H. rewrite Forall_forall in F. apply (F _ H). Qed.
Lemma wfc_nonnull h L x c : wfc h L -> In (x, c) L -> x <> null.
Proof.
  intros [N _] H ->. apply NoDup_cons_iff in N. apply (proj1 N).
  apply (in_map fst) in H. exact H.
Qed.
Lemma wfc_set h L x c c' :
  wfc h ((x, c) :: L) -> wfc (upd h x (Some c')) ((x, c') :: L).
Proof.
  intros [N F]. cbn in N. split; [exact N|].
  apply NoDup_cons_iff in N. destruct N as [N0 N]. apply NoDup_cons_iff in N. destruct N as [N1 N].
  apply Forall_cons; [apply upd_eq|]. inversion F as [|a b F1 F2 E1]; subst.
  rewrite Forall_forall in *. intros [y d] Hp. cbn. rewrite upd_neq.
  - apply (F2 _ Hp).
  - intros ->. apply N1. apply (in_map fst) in Hp. exact Hp.
Qed.
Lemma wfc_neq h L x c y d L' : wfc h L -> Permutation L ((x, c) :: (y, d) :: L') -> x <> y.
Proof.
  intros W P E1. subst. apply (fun a => wfc_perm a P) in W. destruct W as [N _]. cbn in N.
  inversion N as [|a b _ N1]; subst. inversion N1 as [|a b N2 _]; subst. apply N2. now left.
Qed.
Lemma rootp_cells p t : t <> E -> exists c, In (rootp t, c) (cells p t).
Proof. destruct t; [easy|]. intros _. eexists. now left. Qed.
Lemma wfc_neq_root h L x c p t L' :
  wfc h L -> Permutation L ((x, c) :: cells p t ++ L') -> x <> rootp t.
Proof.
  intros W P. apply (fun a => wfc_perm a P) in W. destruct t as [|c' n l y r].
  - eapply wfc_nonnull; [exact W|]. now left.
  - eapply wfc_neq with (L' := (cells y l ++ cells y r) ++ L'); [exact W|]. cbn. reflexivity.
Qed.
Lemma kroot_ccells p k q : k <> Top -> exists c, In (kroot k q, c) (ccells p k q).
Proof.
  revert q. induction k as [|c n y r k IH|c n l y k IH]; intros q H; [easy| |]; cbn.
  - destruct k; [eexists; now left| |]; destruct (IH y) as (d & D); try easy; exists d; right;
      apply in_or_app; right; exact D.
  - destruct k; [eexists; now left| |]; destruct (IH y) as (d & D); try easy; exists d; right;
      apply in_or_app; right; exact D.
Qed.
Lemma wfc_neq_kroot h L x c p k q L' :
  k <> Top -> wfc h L -> Permutation L ((x, c) :: ccells p k q ++ L') -> x <> kroot k q.
Proof.
  intros K W P. apply (fun a => wfc_perm a P) in W. destruct (kroot_ccells p q K) as (d & D).
  apply in_split in D. destruct D as (l1 & l2 & D). rewrite D in W.
  eapply wfc_neq with (c := c) (d := d) (L' := l1 ++ l2 ++ L'); [exact W|]. clear. cperm.
Qed.

Lemma csub_ex (A L : list (node * cell)) :
  (forall p, ccount A p <= ccount L p) -> exists L', Permutation L (A ++ L').
Proof.
  revert L. induction A as [|a A IH]; intros L H; [now exists L|].
  assert (I : In a L).
  { apply (count_occ_In pc_dec). specialize (H a). rewrite ccount_cons in H.
    unfold cone in H. destruct (pc_dec a a); [lia|easy]. }
  apply in_split in I. destruct I as (l1 & l2 & ->).
  destruct (IH (l1 ++ l2)) as (L' & P).
  { intros p. specialize (H p). rewrite ccount_cons, !count_occ_app, ccount_cons in H.
    rewrite count_occ_app. lia. }
  exists L'. cbn [app]. cpermh P.
Qed.
Lemma wfc_sub h (A L : list (node * cell)) :
  wfc h L -> (forall p, ccount A p <= ccount L p) -> exists L', wfc h (A ++ L').
Proof.
  intros W H. destruct (csub_ex _ _ H) as (L' & P). exists L'. eapply wfc_perm; eauto.
Qed.
Lemma sub_neq_root h L x c p t :
  wfc h L -> (forall q, ccount ((x, c) :: cells p t) q <= ccount L q) -> x <> rootp t.
Proof.
  intros W H. destruct (wfc_sub _ W H) as (L' & W'). cbn [app] in W'.
  eapply wfc_neq_root; [exact W'|reflexivity].
Qed.
Lemma sub_neq_kroot h L x c p k r :
  k <> Top -> wfc h L -> (forall q, ccount ((x, c) :: ccells p k r) q <= ccount L q) ->
  x <> kroot k r.
Proof.
  intros K W H. destruct (wfc_sub _ W H) as (L' & W'). cbn [app] in W'.
  eapply wfc_neq_kroot; [exact K|exact W'|reflexivity].
Qed.
Ltac csub := let q := fresh "q" in intros q; cexp; lia.

Lemma wp_rd {A B} (f : cell -> A) x h L c (k : A -> HM B) Q Ex :
  wfc h L -> In (x, c) L -> wp (k (f c)) Q Ex h -> wp (bind (rd f x) k) Q Ex h.
Proof. intros W I K. unfold wp, bind, rd in *. rewrite (wfc_get _ _ W I). exact K. Qed.
Lemma wp_wr {B} f x h L c L' (k : unit -> HM B) Q Ex :
  wfc h L -> Permutation L ((x, c) :: L') ->
  (forall h', wfc h' ((x, f c) :: L') -> wp (k tt) Q Ex h') -> wp (bind (wr f x) k) Q Ex h.
Proof.
  intros W P K. apply (fun a => wfc_perm a P) in W. unfold wp, bind, wr in *.
  rewrite (wfc_get _ _ W (or_introl eq_refl)). apply K. eapply wfc_set; eauto.
Qed.
Lemma wp_tail {S A} (m : M S A) Q Ex s : wp (bind m ret) Q Ex s -> wp m Q Ex s.
Proof. unfold wp, bind, ret. destruct (m s); auto. Qed.
Lemma wp_assoc {S A B C} (m : M S A) (f : A -> M S B) (g : B -> M S C) Q Ex s :
  wp (bind m (fun a => bind (f a) g)) Q Ex s -> wp (bind (bind m f) g) Q Ex s.
Proof. unfold wp, bind. destruct (m s); auto. Qed.

(** remove the cell of [x] from a list expression: (contents, rest) *)
Ltac pull x L :=
  lazymatch L with
  | (x, ?c) :: ?R => constr:((c, R))
  | ?p :: ?R => let r := pull x R in
                lazymatch r with (?c, ?R') => constr:((c, p :: R')) end
  | ?A ++ ?R => let r := pull x R in
                lazymatch r with (?c, ?R') => constr:((c, A ++ R')) end
  end.
Ltac flat W := cbn [cells ccells cpar rootp app plug kroot] in W; rewrite <- ?app_assoc in W;
               cbn [app] in W; rewrite <- ?app_assoc in W; cbn [app] in W.
Ltac find_in :=
  lazymatch goal with
  | |- In _ (_ :: _) => first [left; reflexivity | right; find_in]
  | |- In _ (_ ++ _) => apply in_or_app; right; find_in
  end.
Ltac step1 :=
  lazymatch goal with
  | |- wp (bind (ret _) _) _ _ _ => apply wp_bind, wp_ret
  | |- wp (bind (bind _ _) _) _ _ _ => apply wp_assoc
  | W : wfc ?h ?L |- wp (bind (gl ?x) _) _ _ ?h => eapply wp_rd; [exact W|find_in|]
  | W : wfc ?h ?L |- wp (bind (gr ?x) _) _ _ ?h => eapply wp_rd; [exact W|find_in|]
  | W : wfc ?h ?L |- wp (bind (gp ?x) _) _ _ ?h => eapply wp_rd; [exact W|find_in|]
  | W : wfc ?h ?L |- wp (bind (gc ?x) _) _ _ ?h => eapply wp_rd; [exact W|find_in|]
  | W : wfc ?h ?L |- wp (bind (gs ?x) _) _ _ ?h => eapply wp_rd; [exact W|find_in|]
  | W : wfc ?h ?L |- wp (bind (?f ?x ?v) _) _ _ ?h =>
    first [unify f sl | unify f sr | unify f sp | unify f sc | unify f ss];
    let r := pull x L in
    lazymatch r with (?c, ?L') =>
      eapply (@wp_wr _ _ x h L c L' _ _ _ W);
      [cperm | clear dependent h; let h' := fresh "h" in intros h' W; cbn [cl cr cp cc cs] in W]
    end
  | |- wp (ret _) _ _ _ => apply wp_ret
  | |- wp (gl _) _ _ _ => apply wp_tail
  | |- wp (gr _) _ _ _ => apply wp_tail
  | |- wp (gp _) _ _ _ => apply wp_tail
  | |- wp (gc _) _ _ _ => apply wp_tail
  | |- wp (sl _ _) _ _ _ => apply wp_tail
  | |- wp (sr _ _) _ _ _ => apply wp_tail
  | |- wp (sp _ _) _ _ _ => apply wp_tail
  | |- wp (sc _ _) _ _ _ => apply wp_tail
  | |- wp (ss _ _) _ _ _ => apply wp_tail
  | |- wp (if true then _ else _) _ _ _ => cbv beta match
  | |- wp (if false then _ else _) _ _ _ => cbv beta match
  end; cbn [cl cr cp cc cs].
Ltac neq :=
  lazymatch goal with
  | W : wfc ?h ?L |- ?x <> null => refine (@wfc_nonnull h L x _ W _); find_in
  | W : wfc ?h ?L |- null <> ?x => apply not_eq_sym; refine (@wfc_nonnull h L x _ W _); find_in
  | W : wfc ?h ?L |- ?x <> ?y =>
    let r := pull x L in lazymatch r with (?c, ?L1) =>
    let r := pull y L1 in lazymatch r with (?d, ?L2) =>
    eapply (@wfc_neq h L x c y d L2 W); cperm end end
  end.
Ltac eqb_at x y :=
  first
  [ unify x y; rewrite (Nat.eqb_refl x)
  | let N := fresh in assert (N : x <> y) by neq;
    apply Nat.eqb_neq in N; rewrite N; clear N ];
  cbn [negb].
Ltac eqb_tac :=
  lazymatch goal with
  | |- wp (bind (if negb (?x =? ?y) then _ else _) _) _ _ _ => eqb_at x y
  | |- wp (bind (if ?x =? ?y then _ else _) _) _ _ _ => eqb_at x y
  | |- wp (if negb (?x =? ?y) then _ else _) _ _ _ => eqb_at x y
  | |- wp (if ?x =? ?y then _ else _) _ _ _ => eqb_at x y
  end; cbv beta match.
Ltac go := repeat first [step1 | eqb_tac].
(** [x] differs from the root of a non-empty context, resp. from the root of a subtree *)
Ltac ne_kroot N x p k q :=
  lazymatch goal with W : wfc _ ?L |- _ =>
    let r := pull x L in lazymatch r with (?c, _) =>
    assert (N : x <> kroot k q) by (eapply (@sub_neq_kroot _ _ x c p); [easy|exact W|csub]);
    cbn [kroot] in N; apply Nat.eqb_neq in N end end.
Ltac ne_rootp N x p t :=
  lazymatch goal with W : wfc _ ?L |- _ =>
    let r := pull x L in lazymatch r with (?c, _) =>
    assert (N : x <> rootp t) by (eapply (@sub_neq_root _ _ x c p); [exact W|csub]);
    apply Nat.eqb_neq in N end end.
