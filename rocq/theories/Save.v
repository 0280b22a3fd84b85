(** C44: what is saved of the order of an index, and how it is restored.
    Sources: /repo/include/boost/multi_index/detail/index_saver.hpp, index_loader.hpp *)
From Verif Require Import Prelude Match.
Set Implicit Arguments.

(** ** Model *)
(** An archive, as far as the order of one index is concerned, is a sequence of pointers to nodes, [None] for the
    null pointer. *)
Definition archive := list (option node).

(** index_saver::save, 92-109: the loop; [ls]: last_saved *)
Fixpoint save_loop (prev : node) (ls : nat) (xs : list node) : MM archive :=
  match xs with
  | [] => ret ((if ls <=? 2 then [None] else []) ++ [None])
  | x :: xs =>
    b <- is_ordered x ;;
    (if b then
       rest <- save_loop x (S ls) xs ;; ret ((if ls =? 2 then [None] else []) ++ rest)
     else
       rest <- save_loop x 1 xs ;; ret ((if 1 <? ls then [Some prev] else []) ++ Some x :: rest))
  end.
(** save(first,last,...), 56-109; [xs]: the nodes from first to last *)
Definition save (xs : list node) : MM archive := execute xs ;;; save_loop (hd null xs) 3 xs.

Section Loader.
Variable S : Type.
(** entries(): the nodes added to the loader *)
Variable ents : list node.
(** the rearranger *)
Variable r : option node -> node -> M S unit.
(** check_node, 119-124: std::binary_search in the entries, which have been sorted *)
Definition check_node (p : node) : M S unit := if existsb (Nat.eqb p) ents then ret tt else throw.
(** the loops of load, 77-90.  [prev] is [None] where prev is about to be loaded, in the end of the outer loop.
    An archive where nothing is left throws. *)
Fixpoint load_loop (prev : option node) (ar : archive) : M S archive :=
  match ar, prev with
  | [], _ => throw
  | None :: ar, Some _ => load_loop None ar
  | None :: ar, None => ret ar
  | Some x :: ar, Some p => check_node x ;;; r (if x =? p then None else Some p) x ;;; load_loop (Some x) ar
  | Some p :: ar, None => check_node p ;;; load_loop (Some p) ar
  end.
(** load, 66-91 *)
Definition load (ar : archive) : M S archive :=
  match ar with
  | [] => throw
  | None :: ar => ret ar
  | Some p :: ar => check_node p ;;; load_loop (Some p) ar
  end.
Lemma load_outer ar : load ar = load_loop None ar.
Proof. destruct ar as [|[p|] ar]; reflexivity. Qed.
End Loader.

(** ** Specification *)
(** a rearranger "is expected to reposition the second after the first.  If the first node is 0, then the second
    should be moved to the beginning of the sequence", index_loader.hpp:60-64 *)
Definition without (x : node) (l : list node) : list node := filter (fun y => negb (y =? x)) l.
Fixpoint put_after (p x : node) (l : list node) : list node :=
  match l with [] => [] | y :: l => if y =? p then y :: x :: l else y :: put_after p x l end.
Definition after (prev : option node) (x : node) (l : list node) : list node :=
  match prev with None => x :: without x l | Some p => put_after p x (without x l) end.

(** ** Moving one element *)
Definition last_opt (l : list node) : option node := fold_left (fun _ x => Some x) l None.
Lemma last_opt_snoc l x : last_opt (l ++ [x]) = Some x.
Proof. unfold last_opt. now rewrite fold_left_app. Qed.
Definition among (x : node) (l : list node) : bool := existsb (Nat.eqb x) l.
Lemma among_in x l : among x l = true <-> In x l.
Proof. unfold among. rewrite existsb_exists. split; [intros (y & I & E); apply Nat.eqb_eq in E; now subst|]. intros I. exists x. split; auto. apply Nat.eqb_refl. Qed.
Lemma without_none x l : ~ In x l -> without x l = l.
Proof. intros N. apply filter_all. intros y I. destruct (Nat.eqb_spec y x); auto. now subst. Qed.
Lemma without_mid x a b : ~ In x (a ++ b) -> without x (a ++ x :: b) = a ++ b.
Proof.
  intros N. unfold without. rewrite filter_app. cbn. rewrite Nat.eqb_refl. cbn. rewrite <- filter_app.
  now apply without_none.
Qed.
Lemma without_in x y l : In y (without x l) <-> In y l /\ y <> x.
Proof. unfold without. rewrite filter_In. destruct (Nat.eqb_spec y x); cbn; intuition congruence. Qed.
Lemma put_after_mid p x a b : ~ In p a -> put_after p x (a ++ p :: b) = a ++ p :: x :: b.
Proof.
  induction a as [|y a IH]; cbn; intros N; [now rewrite Nat.eqb_refl|].
  destruct (Nat.eqb_spec y p) as [->|]; [tauto|]. rewrite IH by tauto. reflexivity.
Qed.
Lemma put_after_perm p x l : In p l -> Permutation (x :: l) (put_after p x l).
Proof.
  induction l as [|y l IH]; cbn; [easy|]. destruct (Nat.eqb_spec y p) as [->|]; intros I; [apply perm_swap|].
  eapply perm_trans; [apply perm_swap|]. apply perm_skip, IH. tauto.
Qed.
Lemma without_perm x l : NoDup l -> In x l -> Permutation l (x :: without x l).
Proof.
  intros N I. apply in_split in I as (a & b & ->). apply NoDup_remove in N as (N1 & N2).
  rewrite without_mid by auto. symmetry. apply Permutation_middle.
Qed.
Lemma after_perm prev x l : NoDup l -> In x l -> (forall p, prev = Some p -> In p l /\ p <> x) -> Permutation l (after prev x l).
Proof.
  intros N I H. rewrite (@without_perm x l N I) at 1. destruct prev as [p|]; cbn; auto. apply put_after_perm. apply without_in. now apply H.
Qed.
Lemma filter_put_after (g : node -> bool) p x l : g p = true -> g x = true -> filter g (put_after p x l) = put_after p x (filter g l).
Proof.
  intros P X. induction l as [|y l IH]; cbn; auto. destruct (Nat.eqb_spec y p) as [->|N]; cbn.
  - rewrite P, X. cbn. now rewrite Nat.eqb_refl.
  - destruct (g y); cbn; rewrite IH; auto. destruct (Nat.eqb_spec y p); congruence.
Qed.
Lemma filter_filter {A} (f g : A -> bool) l : filter f (filter g l) = filter g (filter f l).
Proof. induction l as [|y l IH]; cbn; auto. destruct (f y) eqn:F, (g y) eqn:G; cbn; rewrite ?F, ?G, IH; auto. Qed.
Lemma filter_ext_in' {A} (f g : A -> bool) l : (forall x, In x l -> f x = g x) -> filter f l = filter g l.
Proof. induction l as [|y l IH]; intros H; cbn; auto. rewrite (H y) by (now left). rewrite IH; auto. intros x I. apply H. now right. Qed.

(** ** What the saver writes *)
Fixpoint emit (ok : node -> bool) (prev : node) (ls : nat) (xs : list node) : archive :=
  match xs with
  | [] => (if ls <=? 2 then [None] else []) ++ [None]
  | x :: xs =>
    if ok x then (if ls =? 2 then [None] else []) ++ emit ok x (S ls) xs
    else (if 1 <? ls then [Some prev] else []) ++ Some x :: emit ok x 1 xs
  end.
Lemma save_loop_ok ok s xs : forall prev ls, (forall x, In x xs -> is_ordered x s = Ret (ok x) s) ->
  save_loop prev ls xs s = Ret (emit ok prev ls xs) s.
Proof.
  induction xs as [|x xs IH]; intros prev ls H; [reflexivity|]. cbn [save_loop emit].
  unfold bind at 1. rewrite H by (now left). destruct (ok x); unfold bind; rewrite IH by (intros y J; apply H; now right); reflexivity.
Qed.
Lemma emit_map (f : node -> node) ok ok' xs : forall prev ls, (forall x, In x xs -> ok' (f x) = ok x) ->
  map (option_map f) (emit ok prev ls xs) = emit ok' (f prev) ls (map f xs).
Proof.
  induction xs as [|x xs IH]; intros prev ls H; cbn [emit map].
  - destruct (ls <=? 2); reflexivity.
  - rewrite (H x) by (now left). destruct (ok x).
    + rewrite map_app, IH by (intros y J; apply H; now right). destruct (ls =? 2); reflexivity.
    + rewrite map_app. cbn [map]. rewrite IH by (intros y J; apply H; now right). destruct (1 <? ls); reflexivity.
Qed.

(** ** Loading what was saved *)
Section Restore.
Variable S : Type.
(** [Rep l s]: the state [s] represents the sequence [l] *)
Variable Rep : list node -> S -> Prop.
Variable r : option node -> node -> M S unit.
Variable ents L : list node.
Variable ok : node -> bool.
Hypothesis Nd : NoDup L.
Hypothesis Ie : incl L ents.
(** The elements of [P] have been dealt with: these and those in order are in their final relative positions. *)
Definition placed (P Q l : list node) : Prop :=
  Permutation l L /\ L = P ++ Q /\ filter (fun x => among x P || ok x) l = P ++ filter ok Q.

Lemma placed_sub P Q l : placed P Q l -> subseq P l.
Proof.
  intros (_ & _ & F). assert (H := filter_subseq (fun x => among x P || ok x) l). rewrite F in H.
  clear F. remember (P ++ filter ok Q) as m. revert P Heqm. induction H as [l'|x m l' H IH|x m l' H IH]; intros P E.
  - destruct P; [constructor|discriminate].
  - apply sub_skip. auto.
  - destruct P as [|y P]; [constructor|]. injection E as -> ->. apply sub_take. auto.
Qed.
Lemma placed_skip P x Q l : ok x = true -> placed P (x :: Q) l -> placed (P ++ [x]) Q l.
Proof.
  intros K (Pl & E & F). split; [auto|]. split; [now rewrite <- app_assoc|]. rewrite <- app_assoc. cbn in *. rewrite K in F. rewrite <- F.
  apply filter_ext. intros y. unfold among. rewrite existsb_app. cbn. destruct (Nat.eqb_spec y x) as [->|]; [rewrite K, !orb_true_r; auto|now rewrite !orb_false_r].
Qed.
Lemma placed_move P x Q l : placed P (x :: Q) l -> placed (P ++ [x]) Q (after (last_opt P) x l).
Proof.
  intros (Pl & E & F). assert (Nl : NoDup l) by (eapply NoDup_perm; [symmetry; exact Pl|auto]).
  assert (Nx : NoDup (P ++ x :: Q)) by now rewrite <- E. apply NoDup_remove in Nx as (Nx & Nm).
  assert (Il : forall y, In y (P ++ x :: Q) -> In y l). { intros y I. rewrite <- E in I. eapply Permutation_in; [symmetry; exact Pl|auto]. }
  assert (Lp : forall p, last_opt P = Some p -> exists P0, P = P0 ++ [p]).
  { intros p. destruct P as [|q P0 _] using rev_ind; [discriminate|]. rewrite last_opt_snoc. intros [= <-]. eauto. }
  split; [|split].
  - rewrite <- Pl. symmetry. apply after_perm; auto; [apply Il, in_or_app; right; now left|].
    intros p Hp. destruct (Lp p Hp) as (P0 & ->). split; [apply Il; rewrite !in_app_iff; cbn; auto|].
    intros ->. apply Nm. rewrite !in_app_iff. cbn. auto.
  - now rewrite <- app_assoc.
  - set (g' := fun y => among y (P ++ [x]) || ok y).
    assert (G : filter g' (without x l) = P ++ filter ok Q).
    { transitivity (filter (fun y => among y P || ok y) (without x l)).
      - apply filter_ext_in'. intros y J. apply without_in in J as (_ & J). unfold g', among. rewrite existsb_app. cbn.
        destruct (Nat.eqb_spec y x); [easy|]. now rewrite !orb_false_r.
      - unfold without. rewrite filter_filter, F. fold (without x (P ++ filter ok (x :: Q))). cbn [filter].
        assert (N : ~ In x (P ++ filter ok Q)). { rewrite in_app_iff, filter_In. rewrite in_app_iff in Nm. tauto. }
        destruct (ok x); [now apply without_mid|now apply without_none]. }
    assert (Gx : g' x = true). { unfold g'. apply orb_true_iff. left. apply among_in. rewrite in_app_iff. cbn. auto. }
    destruct (last_opt P) as [p|] eqn:Ep; cbn [after].
    + destruct (Lp p eq_refl) as (P0 & ->).
      rewrite filter_put_after, G; auto.
      * rewrite <- !app_assoc. cbn [app]. rewrite put_after_mid; auto.
        apply NoDup_app_iff in Nx as (Nx & _). apply NoDup_remove in Nx as (_ & Nx). now rewrite app_nil_r in Nx.
      * unfold g'. apply orb_true_iff. left. apply among_in. rewrite !in_app_iff. cbn. auto.
    + destruct P as [|q P0 _] using rev_ind; [|rewrite last_opt_snoc in Ep; discriminate]. cbn [filter]. now rewrite Gx, G.
Qed.

(** The rearranger puts [x] where the elements dealt with remain in their final relative positions; [Ex] holds after
    an exception. *)
Variable Ex : S -> Prop.
Hypothesis Hr : forall P x Q l s, placed P (x :: Q) l -> Rep l s ->
  wp (r (last_opt P) x) (fun _ s' => exists l', Rep l' s' /\ placed (P ++ [x]) Q l') Ex s.

Lemma check_ok x (s : S) : In x L -> check_node ents x s = Ret tt s.
Proof. intros I. unfold check_node. replace (existsb (Nat.eqb x) ents) with true; auto. symmetry. apply among_in. auto. Qed.

(** where the loader is when the saver is at an element with [ls] *)
Definition at_ (ls : nat) (P Q l : list node) (prev : node) (mode : option node) : Prop :=
  match ls with
  | 0 => False
  | 1 => exists P0 p, P = P0 ++ [p] /\ prev = p /\ mode = Some p /\ placed P Q l
  | 2 => exists P0 p q, P = P0 ++ [p; q] /\ prev = q /\ mode = Some p /\ ok q = true /\ placed (P0 ++ [p]) (q :: Q) l
  | _ => mode = None /\ placed P Q l /\ match P with [] => prev = hd null Q | _ => last_opt P = Some prev end
  end.
Lemma step_move P x Q l s (p : node) ar (K : archive -> S -> Prop) : placed P (x :: Q) l -> Rep l s -> (last_opt P = Some p \/ P = [] /\ p = x) ->
  (forall l' s', Rep l' s' -> placed (P ++ [x]) Q l' -> wp (load_loop ents r (Some x) ar) K Ex s') ->
  wp (load_loop ents r (Some p) (Some x :: ar)) K Ex s.
Proof.
  intros Pl R Hp Hk. pose proof Pl as (Pm & E & F). cbn [load_loop]. apply wp_bind. eapply wp_det; [apply (@check_ok x s ltac:(rewrite E, in_app_iff; cbn; auto))|].
  assert (G : (if x =? p then None else Some p) = last_opt P).
  { destruct Hp as [Hp|(-> & ->)]; [|now rewrite Nat.eqb_refl]. destruct (Nat.eqb_spec x p) as [->|]; auto.
    destruct P as [|q P0 _] using rev_ind; [discriminate|]. rewrite last_opt_snoc in Hp. injection Hp as ->.
    exfalso. rewrite E, <- app_assoc in Nd. cbn [app] in Nd. apply NoDup_remove_2 in Nd. apply Nd. rewrite in_app_iff. cbn. auto. }
  rewrite G. apply wp_bind. eapply wp_conseq; [apply (@Hr P x Q l s Pl R)|..]; auto. intros _ s' (l' & R' & Pl'). eauto.
Qed.
Lemma load_emit tail Q : forall P l s prev ls mode, at_ ls P Q l prev mode -> Rep l s ->
  wp (load_loop ents r mode (emit ok prev ls Q ++ tail)) (fun t s' => t = tail /\ Rep L s') Ex s.
Proof.
  assert (Fin : forall P l, placed P [] l -> l = L).
  { intros P l (Pm & E & F). rewrite app_nil_r in E. subst P. cbn in F. rewrite app_nil_r in F. rewrite <- F. symmetry. apply filter_all.
    intros x I. apply orb_true_iff. left. apply among_in. eapply Permutation_in; eauto. }
  induction Q as [|x Q IH]; intros P l s prev ls mode A R.
  - destruct ls as [|[|[|ls]]]; cbn [emit app Nat.leb].
    + easy.
    + destruct A as (P0 & p & -> & -> & -> & A). cbn. split; auto. rewrite <- (Fin _ _ A). auto.
    + destruct A as (P0 & p & q & -> & -> & -> & K & A). cbn. split; auto. apply placed_skip in A; auto. rewrite <- (Fin _ _ A). auto.
    + destruct A as (-> & A & _). cbn. split; auto. rewrite <- (Fin _ _ A). auto.
  - cbn [emit]. destruct (ok x) eqn:K; destruct ls as [|[|[|ls]]].
    + easy.
    + (* in order, after a displaced one *)
      destruct A as (P0 & p & -> & -> & -> & A). cbn [Nat.eqb app]. apply (IH (P0 ++ [p; x]) l); auto. exists P0, p, x. auto.
    + (* the second one in order *)
      destruct A as (P0 & p & q & -> & -> & -> & Kq & A). cbn [Nat.eqb app load_loop]. apply (IH (P0 ++ [p; q; x]) l); auto. cbn [at_].
      split; auto. split; [|destruct P0; cbn; auto].
      * apply placed_skip in A; auto. apply placed_skip in A; auto. rewrite <- !app_assoc in A. exact A.
      * unfold last_opt. cbn. rewrite fold_left_app. reflexivity.
    + destruct A as (-> & A & Hp). cbn [Nat.eqb app]. apply (IH (P ++ [x]) l); auto. cbn [at_]. split; auto. split; [now apply placed_skip|].
      destruct (P ++ [x]) eqn:E; [destruct P; discriminate|]. rewrite <- E. apply last_opt_snoc.
    + easy.
    + destruct A as (P0 & p & -> & -> & -> & A). cbn [Nat.ltb Nat.leb app].
      apply (@step_move (P0 ++ [p]) x Q l s p (emit ok x 1 Q ++ tail) _ A R); [left; apply last_opt_snoc|]. intros l' s' R' A'.
      apply (IH ((P0 ++ [p]) ++ [x]) l'); auto. exists (P0 ++ [p]), x. auto.
    + (* the one before is moved, too *)
      destruct A as (P0 & p & q & -> & -> & -> & Kq & A). cbn [Nat.ltb Nat.leb app].
      apply (@step_move (P0 ++ [p]) q (x :: Q) l s p (Some x :: emit ok x 1 Q ++ tail) _ A R); [left; apply last_opt_snoc|]. intros l1 s1 R1 A1.
      apply (@step_move ((P0 ++ [p]) ++ [q]) x Q l1 s1 q (emit ok x 1 Q ++ tail) _ A1 R1); [left; apply last_opt_snoc|]. intros l' s' R' A'.
      apply (IH (((P0 ++ [p]) ++ [q]) ++ [x]) l'); auto. exists ((P0 ++ [p]) ++ [q]), x. auto.
    + destruct A as (-> & A & Hp). cbn [Nat.ltb Nat.leb app].
      assert (Hq : last_opt P = Some prev \/ P = [] /\ prev = x) by (destruct P; auto).
      change (load_loop ents r None (Some prev :: Some x :: emit ok x 1 Q ++ tail)) with (@check_node S ents prev ;;; load_loop ents r (Some prev) (Some x :: emit ok x 1 Q ++ tail)).
      apply wp_bind. eapply wp_det.
      { apply check_ok. destruct A as (_ & E & _). rewrite E, in_app_iff. destruct Hq as [Hq|(-> & ->)]; [|cbn; auto].
        destruct P as [|q P0 _] using rev_ind; [discriminate|]. rewrite last_opt_snoc in Hq. injection Hq as ->. left. rewrite in_app_iff. cbn. auto. }
      apply (@step_move P x Q l s prev (emit ok x 1 Q ++ tail) _ A R Hq). intros l' s' R' A'.
      apply (IH (P ++ [x]) l'); auto. exists P, x. auto.
Qed.
(** From a sequence where the elements in order are in order, loading restores the saved one. *)
Lemma load_restores tail l s : Permutation l L -> subseq (filter ok L) l -> Rep l s ->
  wp (load ents r (emit ok (hd null L) 3 L ++ tail)) (fun t s' => t = tail /\ Rep L s') Ex s.
Proof.
  intros Pm Sb R. rewrite load_outer. apply (load_emit tail L) with (P := []) (l := l); auto. split; auto. split; auto.
  split; auto. split; auto. cbn. apply subseq_filter; auto; [eapply NoDup_perm; [symmetry; exact Pm|auto]|].
  intros x I. rewrite filter_In. split; [intros K; split; auto; eapply Permutation_in; eauto|tauto].
Qed.
End Restore.

(** ** Any archive *)
Section Any.
Variable S : Type.
Variable Rep : list node -> S -> Prop.
Variable r : option node -> node -> M S unit.
Variable ents : list node.
Variable L : list node.
Hypothesis Nd : NoDup L.
Hypothesis Ie : incl ents L.
Hypothesis Hr : forall prev x l s, Permutation l L -> Rep l s -> In x l -> (forall p, prev = Some p -> In p l /\ p <> x) ->
  wp (r prev x) (fun _ s' => exists l', Permutation l' L /\ Rep l' s') (fun s' => exists l', Permutation l' L /\ Rep l' s') s.
Let Post (s' : S) : Prop := exists l', Permutation l' L /\ Rep l' s'.
Lemma load_loop_any ar : forall prev l s, Permutation l L -> Rep l s -> (forall p, prev = Some p -> In p L) ->
  wp (load_loop ents r prev ar) (fun _ => Post) Post s.
Proof.
  assert (Ck : forall x s (k : M S archive), (In x L -> wp k (fun _ => Post) Post s) -> Post s -> wp (check_node ents x ;;; k) (fun _ => Post) Post s).
  { intros x s k H P. unfold check_node. destruct (existsb (Nat.eqb x) ents) eqn:E.
    - apply wp_bind, wp_ret. apply H, Ie. now apply among_in.
    - now apply wp_bind, wp_throw. }
  induction ar as [|[x|] ar IH]; intros prev l s Pm R Hp; cbn [load_loop].
  - apply wp_throw. exists l. auto.
  - destruct prev as [p|]; (apply Ck; [intros Ix|exists l; auto]).
    + apply wp_bind. eapply wp_conseq; [apply (@Hr _ x l s Pm R)|..]; auto.
      * eapply Permutation_in; [symmetry; exact Pm|auto].
      * destruct (Nat.eqb_spec x p) as [|Ne]; [discriminate|]. intros q [= <-]. split; [|congruence].
        eapply Permutation_in; [symmetry; exact Pm|]. auto.
      * intros [] s' (l' & Pm' & R'). apply (IH _ l'); auto. intros q [= <-]. auto.
    + apply (IH _ l); auto. intros q [= <-]. auto.
  - destruct prev as [p|]; [apply (IH _ l); auto; discriminate|]. apply wp_ret. exists l. auto.
Qed.
Lemma load_any ar l s : Permutation l L -> Rep l s -> wp (load ents r ar) (fun _ => Post) Post s.
Proof. intros Pm R. rewrite load_outer. apply load_loop_any with l; auto. discriminate. Qed.
End Any.

(** ** From one container to another *)
(** [f] takes a saved node to the node which took its place: pointers are translated by the archive.  In order
    there are the nodes whose originals are. *)
Definition carried (f : node -> node) (base : list node) (ok : node -> bool) (y : node) : bool :=
  existsb (fun x => (f x =? y) && ok x) base.
Lemma carried_at f base ok x : (forall a b, In a base -> In b base -> f a = f b -> a = b) -> In x base -> carried f base ok (f x) = ok x.
Proof.
  intros Inj I. unfold carried. destruct (ok x) eqn:K.
  - apply existsb_exists. exists x. split; auto. now rewrite Nat.eqb_refl, K.
  - apply not_true_iff_false. intros H. apply existsb_exists in H as (y & J & H). apply andb_true_iff in H as (E & K').
    apply Nat.eqb_eq in E. apply Inj in E; auto. congruence.
Qed.
Lemma subseq_map {A B} (f : A -> B) l l' : subseq l l' -> subseq (map f l) (map f l').
Proof. induction 1; cbn; [apply sub_nil|now apply sub_skip|now apply sub_take]. Qed.
Lemma filter_map_in (f : node -> node) (p : node -> bool) (q : node -> bool) l : (forall x, In x l -> q (f x) = p x) -> filter q (map f l) = map f (filter p l).
Proof.
  induction l as [|x l IH]; intros H; cbn; auto. rewrite (H x) by (now left). rewrite IH by (intros y I; apply H; now right). now destruct (p x).
Qed.
Lemma nodup_map_in (f : node -> node) l : (forall a b, In a l -> In b l -> f a = f b -> a = b) -> NoDup l -> NoDup (map f l).
Proof.
  intros Inj N. induction N as [|x l Nx N IH]; cbn; constructor.
  - rewrite in_map_iff. intros (y & E & I). apply Inj in E; [now subst|now right|now left].
  - apply IH. intros a b I J. apply Inj; now right.
Qed.

(** What is saved of a sequence [xs] of elements of the base sequence, as it is read in the other container *)
Lemma save_ok base xs f m0 : NoDup base -> NoDup xs -> incl xs base -> ready base m0 ->
  (forall a b, In a base -> In b base -> f a = f b -> a = b) ->
  exists m1 ar ok, save xs m0 = Ret ar m1 /\ ready base m1 /\ subseq (filter ok xs) base /\
    (forall x, In x base -> carried f base ok (f x) = ok x) /\
    map (option_map f) ar = emit (carried f base ok) (hd null (map f xs)) 3 (map f xs).
Proof.
  intros N Nx Ix Rd Inj. destruct (@C45_longest base N m0 xs Rd Nx Ix) as (m1 & ok & E & Rd1 & Or & Sb & _).
  assert (K : forall x, In x base -> carried f base ok (f x) = ok x) by (intros x I; now apply carried_at).
  exists m1, (emit ok (hd null xs) 3 xs), ok. splits; auto.
  - unfold save. rewrite (bind_ret _ _ _ E). now apply save_loop_ok.
  - destruct xs as [|x0 xs']; [reflexivity|]. rewrite (emit_map f ok (carried f base ok)) by (intros x I; apply K; auto). reflexivity.
Qed.

(** It is restored by any rearranger which does what it is expected to, in an index which holds the copies of the
    nodes in the order of the base sequence. *)
Lemma save_load (S : Type) (Rep : list node -> S -> Prop) (r : option node -> node -> M S unit) (Ex : S -> Prop) base xs f m0 :
  NoDup base -> Permutation xs base -> ready base m0 -> (forall a b, In a base -> In b base -> f a = f b -> a = b) ->
  (forall prev x l s, Permutation l (map f base) -> Rep l s -> In x l -> (forall p, prev = Some p -> In p l /\ p <> x) ->
     wp (r prev x) (fun _ => Rep (after prev x l)) Ex s) ->
  exists m1 ar, save xs m0 = Ret ar m1 /\ ready base m1 /\
    forall tail s, Rep (map f base) s ->
      wp (load (map f base) r (map (option_map f) ar ++ tail)) (fun t s' => t = tail /\ Rep (map f xs) s') Ex s.
Proof.
  intros N Pm Rd Inj Hr. assert (Nx : NoDup xs) by (eapply NoDup_perm; [symmetry; exact Pm|auto]).
  assert (Ix : incl xs base) by (intros x; eapply Permutation_in; eauto).
  destruct (@save_ok base xs f m0 N Nx Ix Rd Inj) as (m1 & ar & ok & E & Rd1 & Sb & K & Em).
  exists m1, ar. splits; auto. intros tail s R. rewrite Em.
  assert (Nm : NoDup (map f xs)) by (apply nodup_map_in; auto).
  assert (Pf : Permutation (map f base) (map f xs)) by (apply Permutation_map; now symmetry).
  apply load_restores with (Rep := Rep) (l := map f base); auto.
  - intros y I. eapply Permutation_in; [symmetry; exact Pf|auto].
  - intros P x Q l s0 Pl Rl. assert (Sp := placed_sub Pl). pose proof Pl as (Pml & EL & _).
    assert (Ixl : In x l) by (eapply Permutation_in; [symmetry; exact Pml|rewrite EL, in_app_iff; cbn; auto]).
    eapply wp_conseq; [apply (Hr (last_opt P) x l s0)|..]; auto.
    + now rewrite Pml, Pf.
    + intros p Hp. destruct P as [|q P0 _] using rev_ind; [discriminate|]. rewrite last_opt_snoc in Hp. injection Hp as ->.
      split; [eapply subseq_in; [exact Sp|]; rewrite in_app_iff; cbn; auto|]. intros ->. rewrite EL, <- app_assoc in Nm. cbn [app] in Nm.
      apply NoDup_remove_2 in Nm. apply Nm. rewrite in_app_iff. cbn. auto.
    + intros u s' R'. exists (after (last_opt P) x l). split; auto. now apply (placed_move (S := S)).
  - rewrite (filter_map_in f ok (carried f base ok)) by auto. now apply subseq_map.
Qed.
