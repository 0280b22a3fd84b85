(** A replacement which fails leaves every hashed index as it was, link by link. *)
From Verif Require Import Prelude Layer LayerBase OrdModel OrdIdx SeqIdx RndIdx HashModel HashIdx HashHeap HashUndo Stack View Container Down.
Set Implicit Arguments.

(** ** Triples for partial correctness *)
Section Tri.
Context {S : Type}.
Definition tri {A} (P : S -> Prop) (m : M S A) (Q : A -> S -> Prop) (E : S -> Prop) : Prop :=
  forall s, P s -> match m s with Ret a s' => Q a s' | Exn s' => E s' | UB => True end.
(** [P] still holds whatever happens *)
Definition stays {A} (P : S -> Prop) (m : M S A) : Prop := tri P m (fun _ => P) P.
(** [P] still holds when the operation fails *)
Definition meek (P : S -> Prop) (m : M S bool) : Prop := tri P m (fun r s => r = false -> P s) P.

Lemma tri_bind A B P (m : M S A) (k : A -> M S B) R Q E :
  tri P m R E -> (forall a, tri (R a) (k a) Q E) -> tri P (bind m k) Q E.
Proof. intros H1 H2 s H. specialize (H1 s H). unfold bind. destruct (m s); auto. now apply H2. Qed.
Lemma tri_try A P (m h : M S A) Q E E' : tri P m Q E' -> tri E' h Q E -> tri P (try_catch m h) Q E.
Proof. intros H1 H2 s H. specialize (H1 s H). unfold try_catch. destruct (m s); auto. now apply H2. Qed.
Lemma tri_conseq A (P P' : S -> Prop) (m : M S A) (Q Q' : A -> S -> Prop) (E E' : S -> Prop) : tri P m Q E -> (forall s, P' s -> P s) ->
  (forall a s, Q a s -> Q' a s) -> (forall s, E s -> E' s) -> tri P' m Q' E'.
Proof. intros H H1 H2 H3 s Hs. specialize (H s (H1 s Hs)). destruct (m s); auto. Qed.
Lemma tri_ret A (a : A) (P : S -> Prop) (Q : A -> S -> Prop) E : (forall s, P s -> Q a s) -> tri P (ret a) Q E.
Proof. intros H s. apply H. Qed.
Lemma tri_throw A (P E : S -> Prop) (Q : A -> S -> Prop) : (forall s, P s -> E s) -> tri P throw Q E.
Proof. intros H s. apply H. Qed.
Lemma stays_ret A (a : A) P : stays P (ret a).
Proof. now apply tri_ret. Qed.
Lemma stays_ub A P : stays P (@ub S A).
Proof. intros s _. exact I. Qed.
Lemma stays_bind A B P (m : M S A) (k : A -> M S B) : stays P m -> (forall a, stays P (k a)) -> stays P (bind m k).
Proof. intros H1 H2. eapply tri_bind; [exact H1|exact H2]. Qed.
Lemma stays_meek P (m : M S bool) : stays P m -> meek P m.
Proof. intros H. eapply tri_conseq; [exact H|..]; auto. Qed.
Lemma meek_bind A P (m : M S A) (k : A -> M S bool) : stays P m -> (forall a, meek P (k a)) -> meek P (bind m k).
Proof. intros H1 H2. eapply tri_bind; [exact H1|exact H2]. Qed.
End Tri.
Lemma stays_own T S A (P : S -> Prop) (m : M T A) : stays (fun st : T * S => P (snd st)) (ownM m).
Proof. intros (t, s) H. unfold ownM, lensM. cbn in *. destruct (m t); auto. Qed.
Lemma tri_sup T S A (P : S -> Prop) (m : M S A) Q E : tri P m Q E ->
  tri (fun st : T * S => P (snd st)) (supM m) (fun a st => Q a (snd st)) (fun st => E (snd st)).
Proof. intros H (t, s) Hs. unfold supM, lensM. cbn in *. specialize (H s Hs). destruct (m s); auto. Qed.

(** computations which do not throw *)
Definition calm {S A} (m : M S A) : Prop := tri (fun _ => True) m (fun _ _ => True) (fun _ => False).
Lemma calm_bind S A B (m : M S A) (k : A -> M S B) : calm m -> (forall a, calm (k a)) -> calm (bind m k).
Proof. intros H1 H2. eapply tri_bind; [exact H1|intros a; apply H2]. Qed.
Lemma calm_ret S A (a : A) : calm (@ret S A a).
Proof. now apply tri_ret. Qed.
Lemma calm_ub S A : calm (@ub S A).
Proof. intros s _. exact I. Qed.
Ltac clm := repeat first
  [ apply calm_ret | apply calm_ub | apply calm_bind; [|intros ?]
  | match goal with
    | |- calm (if ?b then _ else _) => destruct b
    | |- calm (match ?p with _ => _ end) => destruct p
    | H : _ |- _ => solve [apply H]
    end ].
Lemma ord_link_calm rk hd f x sd pos : calm (OrdModel.link rk hd f x sd pos).
Proof.
  assert (R : forall A (g : OrdModel.cell -> A) y, calm (OrdModel.rd g y)) by (intros A g y h _; unfold OrdModel.rd; destruct (h y); exact I).
  assert (W : forall g y, calm (OrdModel.wr g y)) by (intros g y h _; unfold OrdModel.wr; destruct (h y); exact I).
  assert (A : forall root f y, calm (add_loop f y root)).
  { intros root. induction f0 as [|f0 IH]; intros y; cbn [add_loop]; clm; unfold gs, ss, gp; clm. }
  assert (Ra : forall root f y, calm (rank_add rk f y root)).
  { intros root f0 y. unfold rank_add. clm; unfold ss, gs, gp; clm. }
  assert (Rr : forall y z, calm (rank_rotate rk y z)) by (intros y z; unfold rank_rotate, node_size, gl, gr, gs, ss; clm).
  assert (Rl : forall y, calm (rotate_left rk hd y)) by (intros y; unfold rotate_left, gr, gl, gp, sr, sl, sp; clm).
  assert (Rt : forall y, calm (rotate_right rk hd y)) by (intros y; unfold rotate_right, gr, gl, gp, sr, sl, sp; clm).
  assert (Rb : forall f y, calm (reb_loop rk hd f y)).
  { induction f0 as [|f0 IH]; intros y; cbn [reb_loop]; unfold reb_recolor, reb_left, reb_right, nonnull_red, gc, gp, gl, gr, sc; clm. }
  unfold OrdModel.link, rebalance, gl, gr, gp, sl, sr, sp, sc. clm.
Qed.

(** ** Indices above the one looked at *)
Section Above.
Variable V : Type.
Variable throws : nat -> bool.
Variable pick : list node -> node.
Variable hd : node.
Variable L : Layer V.
Variable P : St L -> Prop.
Hypothesis Pb : forall b s, P s -> P (bset L b s).
Notation Q := (fun st => P (snd st)).

Lemma stays_bas T A (m : M (bst V) A) : stays (fun st : T * St L => P (snd st)) (supM (basM L m)).
Proof.
  apply (@tri_sup T (St L) A P _ (fun _ => P) P). intros s H. unfold basM, lensM. destruct (m (bget L s)); auto.
Qed.
Lemma stays_size T : stays (fun st : T * St L => P (snd st)) (supM (Layer.size L)).
Proof. apply (@tri_sup T (St L) nat P _ (fun _ => P) P). intros s H. exact H. Qed.

Ltac sm := repeat first
  [ apply stays_ret | apply stays_ub | apply stays_own | apply stays_bas | apply stays_size | apply stays_bind; [|intros ?]
  | match goal with
    | |- stays _ (if ?b then _ else _) => destruct b
    | |- stays _ (match ?p with _ => _ end) => destruct p
    | |- stays _ (let (_, _) := ?p in _) => destruct p
    | H : _ |- _ => solve [apply H]
    end ].

(** *** ordered indices *)
Section Ord.
Variable K : Type.
Variable key : V -> K.
Variable lt : K -> K -> bool.
Variables uniq rk : bool.
Lemma ord_lp f k y x c : stays Q (OrdIdx.lp_loop throws key lt L f k y x c).
Proof. revert y x c. induction f as [|f IH]; intros y x c; cbn [OrdIdx.lp_loop]; [sm|]. unfold OrdIdx.oval, OrdIdx.cmp, OrdIdx.ucall. sm. Qed.
Lemma ord_link_point k : stays Q (OrdIdx.link_point throws key lt uniq hd L k).
Proof.
  assert (H := ord_lp). unfold OrdIdx.link_point, OrdIdx.link_point_unique, OrdIdx.link_point_nu, OrdIdx.bound, OrdIdx.tree, OrdIdx.oval, OrdIdx.cmp, OrdIdx.ucall. sm.
Qed.
Lemma ord_in_place v x : stays Q (OrdIdx.in_place throws key lt uniq hd L v x).
Proof. unfold OrdIdx.in_place, OrdIdx.tree, OrdIdx.oval, OrdIdx.cmp, OrdIdx.ucall. sm. Qed.
Lemma ord_move v x m : meek P m -> meek Q (OrdIdx.o_move_ throws key lt uniq rk hd L v x m).
Proof.
  intros H. assert (Hm := @tri_sup OrdModel.heap _ _ _ _ _ _ H). unfold OrdIdx.o_move_. apply meek_bind; [apply ord_in_place|]. intros [|]; [exact Hm|].
  apply meek_bind; [unfold OrdIdx.tree; sm|]. intros next. apply meek_bind; [unfold OrdIdx.unlink, OrdIdx.tree; sm|]. intros ?.
  apply (@tri_try _ _ _ _ _ _ _ Q).
  - apply meek_bind; [apply ord_link_point|]. intros (ok, (sd, pos)).
    apply (@tri_bind _ _ _ _ _ _ (fun r st => r = false -> P (snd st))).
    + destruct ok; [exact Hm|apply tri_ret; auto].
    + intros [|].
      * intros st _. unfold OrdIdx.tree, bind, supM, ownM, lensM, Layer.size. cbn.
        assert (C := @ord_link_calm rk hd (cget L (snd st) + 4) x sd pos (fst st) Logic.I).
        destruct (OrdModel.link rk hd _ x sd pos (fst st)) as [u t|t|] eqn:E; cbn; auto; [discriminate|easy].
      * eapply tri_conseq; [apply meek_bind; [unfold OrdIdx.tree; sm|intros ?; apply stays_meek; sm]|..]; auto; intros st0 H0; now apply H0.
  - eapply tri_bind; [unfold OrdIdx.tree; sm|]. intros ?. now apply tri_throw.
Qed.
End Ord.

(** *** hashed indices *)
Section Hash.
Variable K : Type.
Variable key : V -> K.
Variable eq : K -> K -> bool.
Variable hash : K -> nat.
Variable uniq : bool.
Ltac sh := unfold HashIdx.test, HashIdx.same, HashIdx.oval, HashIdx.ucall, HashIdx.hcall, HashIdx.hpM, HashIdx.get, HashIdx.at_, HashIdx.bound; sm.
Lemma hash_find f p x : stays Q (HashIdx.find_loop throws key uniq L f p x).
Proof. revert x. induction f as [|f IH]; intros x; cbn [HashIdx.find_loop]; sh. Qed.
Lemma hash_last x : stays Q (HashIdx.last_of_range throws key eq uniq L x).
Proof. unfold HashIdx.last_of_range. sh. Qed.
Lemma hash_link_point k b : stays Q (HashIdx.link_point throws key eq uniq L k b).
Proof. assert (H1 := hash_find). assert (H2 := hash_last). unfold HashIdx.link_point. sh. Qed.
Lemma hash_in_place x k b : stays Q (HashIdx.in_place throws key eq uniq L x k b).
Proof.
  assert (U : forall f y c, stays Q (HashIdx.u_in_place throws key eq uniq L f x k y c)).
  { induction f as [|f IH]; intros y c; cbn [HashIdx.u_in_place]; sh. }
  assert (Gr : forall f y z, stays Q (HashIdx.in_group uniq L f x y z)).
  { induction f as [|f IH]; intros y z; cbn [HashIdx.in_group]; sh. }
  assert (N : forall f y c n, stays Q (HashIdx.n_in_place throws key eq uniq L f x k y c n)).
  { induction f as [|f IH]; intros y c n; cbn [HashIdx.n_in_place]; sh. }
  unfold HashIdx.in_place. sh.
Qed.
Lemma hash_do_link_calm x pos st : match HashIdx.do_link uniq hd L x pos st with Exn _ => False | _ => True end.
Proof.
  assert (R : forall l, calm (HashModel.rd l)) by (intros l h _; unfold HashModel.rd; destruct (h l); exact I).
  assert (W : forall l v, calm (HashModel.wr l v)) by (intros l v h _; unfold HashModel.wr; destruct (h l); exact I).
  assert (Pf : forall b, calm (pfrom b)) by (intros [y|y i]; unfold pfrom; clm).
  assert (Lk : forall x b, calm (HashModel.link x b hd)).
  { intros y b. unfold HashModel.link, pri, nxt, set_pri, set_nxt. clm. }
  assert (Ln : forall x f l, calm (n_link x f l)) by (intros y f l; unfold n_link, pri, nxt, set_pri, set_nxt; clm).
  assert (H : forall m : HashModel.HM unit, calm m -> match HashIdx.hpM L m st with Exn _ => False | _ => True end).
  { intros m C. specialize (C (hp (fst st)) Logic.I). unfold HashIdx.hpM, ownM, lensM. destruct (m (hp (fst st))); auto. }
  unfold HashIdx.do_link. destruct uniq; [now apply H|]. destruct (_ =? _); [now apply H|]. apply H.
  apply calm_bind; [apply Pf|]. intros f. apply Ln.
Qed.
Lemma hash_move k x fb m : stays Q fb -> meek P m -> meek Q (HashIdx.h_move_ throws key eq uniq hd L k x fb m).
Proof.
  intros Hf H. assert (Hm := @tri_sup hst _ _ _ _ _ _ H). unfold HashIdx.h_move_. apply meek_bind; [unfold HashIdx.unlink_undo; sh|]. intros u.
  apply (@tri_try _ _ _ _ _ _ _ Q).
  - apply meek_bind; [exact Hf|]. intros b. apply meek_bind; [apply hash_link_point|]. intros (ok, pos).
    apply (@tri_bind _ _ _ _ _ _ (fun r st => r = false -> P (snd st))).
    + destruct ok; [exact Hm|apply tri_ret; auto].
    + intros [|].
      * intros st _. unfold bind. assert (C := hash_do_link_calm x pos st). destruct (HashIdx.do_link uniq hd L x pos st); easy.
      * apply (@tri_conseq _ _ Q _ _ (fun r st => r = false -> P (snd st)) _ Q); auto. apply meek_bind; [sh|intros ?; apply stays_meek; sm].
  - eapply tri_bind; [sh|]. intros ?. now apply tri_throw.
Qed.
End Hash.

(** *** any index *)
Lemma replace_above c v x : meek P (l_replace L v x) -> meek (fun st => P (below throws pick hd c L st)) (l_replace (layer_of throws pick hd c L) v x).
Proof.
  intros H. destruct c as [K key lt uniq rk junk|jn jp|ju|K key eq hash uniq jh n0 pl]; cbn [layer_of below].
  - now apply ord_move.
  - exact (@tri_sup SeqModel.sst _ _ _ _ _ _ H).
  - exact (@tri_sup RndModel.rst _ _ _ _ _ _ H).
  - cbn [l_replace HashIdx.hashed]. unfold HashIdx.h_replace_. apply meek_bind.
    + unfold HashIdx.test, HashIdx.oval, HashIdx.ucall. sm.
    + intros [|]; [exact (@tri_sup hst _ _ _ _ _ _ H)|]. apply hash_move; auto. unfold HashIdx.bucket, HashIdx.hcall, HashIdx.ucall, HashIdx.get. sm.
Qed.
Lemma modify_rb_above c x : meek P (l_modify_rb L x) -> meek (fun st => P (below throws pick hd c L st)) (l_modify_rb (layer_of throws pick hd c L) x).
Proof.
  intros H. destruct c as [K key lt uniq rk junk|jn jp|ju|K key eq hash uniq jh n0 pl]; cbn [layer_of below].
  - cbn [l_modify_rb ordered]. unfold o_modify_rb_. apply meek_bind; [unfold OrdIdx.oval; sm|]. intros v. now apply ord_move.
  - exact (@tri_sup SeqModel.sst _ _ _ _ _ _ H).
  - exact (@tri_sup RndModel.rst _ _ _ _ _ _ H).
  - cbn [l_modify_rb HashIdx.hashed]. unfold HashIdx.h_modify_rb_. apply meek_bind; [unfold HashIdx.oval; sm|]. intros v. apply meek_bind.
    + unfold HashIdx.bucket, HashIdx.hcall, HashIdx.ucall, HashIdx.get. sm.
    + intros b. apply meek_bind; [apply hash_in_place|]. intros [|]; [exact (@tri_sup hst _ _ _ _ _ _ H)|]. apply hash_move; auto. sm.
Qed.
End Above.

(** ** The hashed index *)
(** everything in the index is as it was: bucket array, maximum load, maximum load factor and all links *)
Definition intact (t t' : hst) : Prop := arr t' = arr t /\ bc t' = bc t /\ ml t' = ml t /\ pol t' = pol t /\ forall l, hp t' l = hp t l.
Lemma intact_refl t : intact t t.
Proof. unfold intact. auto. Qed.
Lemma intact_trans t t1 t2 : intact t t1 -> intact t1 t2 -> intact t t2.
Proof.
  intros (A1 & A2 & A3 & A4 & A5) (B1 & B2 & B3 & B4 & B5). unfold intact. splits; try congruence.
Qed.

Section Here.
Variables V K : Type.
Variable throws : nat -> bool.
Variable pick : list node -> node.
Variable hd : node.
Variable L : Layer V.
Variable key : V -> K.
Variable eq : K -> K -> bool.
Variable hash : K -> nat.
Variable uniq : bool.
Variable jh : bptr * bptr.
Definition eqt (t : hst) (st : ost L) : Prop := fst st = t.

Lemma here_sup A t (m : M (St L) A) : stays (eqt t) (supM m).
Proof. intros (t1, s) H. unfold eqt, supM, lensM in *. cbn in *. destruct (m s); auto. Qed.
Lemma here_get A t (f : hst -> A) : stays (eqt t) (get L f).
Proof. intros (t1, s) H. exact H. Qed.
Lemma here_hp A t (m : HM A) : reads m -> stays (eqt t) (hpM L m).
Proof.
  intros R (t1, s) H. unfold eqt, hpM, ownM, lensM in *. cbn in *. specialize (R (hp t1)). destruct (m (hp t1)); auto; [|easy].
  subst s0. destruct t1. exact H.
Qed.
Lemma here_at t i : stays (eqt t) (at_ L i).
Proof. apply here_get. Qed.

Ltac rds := repeat first
  [ apply reads_ret | apply reads_ub | apply reads_rd | apply reads_pfrom | apply reads_bind; [|intros ?]
  | match goal with
    | |- reads (if ?b then _ else _) => destruct b
    | |- reads (match ?b with _ => _ end) => destruct b
    end ].
Ltac sm := repeat first
  [ apply stays_ret | apply stays_ub | apply here_sup | apply here_get | apply here_at | apply stays_bind; [|intros ?]
  | apply here_hp; solve [rds | unfold after_local, next_to_inspect, u_after_local, n_after_local, n_after_or, n_next_to_inspect, n_first_of_group, pri, nxt; rds]
  | match goal with
    | |- stays _ (if ?b then _ else _) => destruct b
    | |- stays _ (match ?p with _ => _ end) => destruct p
    | H : _ |- _ => solve [apply H]
    end ].
Ltac sh := unfold test, same, oval, ucall, hcall, bound; sm.
Lemma here_find t f p x : stays (eqt t) (find_loop throws key uniq L f p x).
Proof. revert x. induction f as [|f IH]; intros x; cbn [find_loop]; sh. Qed.
Lemma here_last t x : stays (eqt t) (last_of_range throws key eq uniq L x).
Proof. unfold last_of_range. sh. Qed.
Lemma here_bucket t k : stays (eqt t) (bucket throws hash L k).
Proof. unfold bucket. sh. Qed.
Lemma here_link_point t k b : stays (eqt t) (link_point throws key eq uniq L k b).
Proof. assert (H1 := @here_find t). assert (H2 := @here_last t). unfold link_point. sh. Qed.
Lemma here_in_place t x k b : stays (eqt t) (in_place throws key eq uniq L x k b).
Proof.
  assert (U : forall f y c, stays (eqt t) (u_in_place throws key eq uniq L f x k y c)).
  { induction f as [|f IH]; intros y c; cbn [u_in_place]; sh. }
  assert (Gr : forall f y z, stays (eqt t) (in_group uniq L f x y z)).
  { induction f as [|f IH]; intros y z; cbn [in_group]; sh. }
  assert (N : forall f y c n, stays (eqt t) (n_in_place throws key eq uniq L f x k y c n)).
  { induction f as [|f IH]; intros y c n; cbn [n_in_place]; sh. }
  unfold in_place. sh.
Qed.

Definition same_as (t : hst) (st : ost L) : Prop := intact t (fst st).
Lemma eqt_same t st : eqt t st -> same_as t st.
Proof. intros <-. apply intact_refl. Qed.

(** undoing what was tracked *)
Lemma here_undo t u h1 h2 :
  undo u h1 = Ret tt h2 -> heq h2 (hp t) ->
  tri (eqt (set_hp h1 t)) (hpM L (undo u)) (fun _ => same_as t) (same_as t).
Proof.
  intros E Q (t1, s) H. unfold eqt in H. cbn in H. subst t1. unfold hpM, ownM, lensM. cbn. rewrite E. cbn.
  unfold same_as, intact. cbn. splits; auto.
Qed.
Lemma here_move t k x fb m : (forall t1, stays (eqt t1) fb) ->
  tri (eqt t) (h_move_ throws key eq uniq hd L k x fb m) (fun r st => r = false -> same_as t st) (same_as t).
Proof.
  intros Hf st H. unfold eqt in H. destruct st as (t1, s). cbn in H. subst t1.
  unfold h_move_, unlink_undo. unfold bind at 1. unfold hpM at 1, ownM at 1, lensM at 1 2. cbn [fst snd].
  assert (U := @tracked_undo uniq x (hp t)). destruct (tracked (alg_unlink uniq true x) (hp t)) as [u h1|h1|] eqn:E1; [|easy|exact Logic.I].
  destruct U as (h2 & E2 & Q2). cbn [fst snd].
  assert (T : tri (eqt (set_hp h1 t))
    (try_catch
      (buc <- fb ;;
       r <- link_point throws key eq uniq L k buc ;;
       let (ok, pos) := r : bool * linfo in
       b <- (if ok : bool then supM m else ret false) ;;
       if b : bool then do_link uniq hd L x pos ;;; ret true
       else hpM L (undo u) ;;; ret false)
      (hpM L (undo u) ;;; throw)) (fun r st => r = false -> same_as t st) (same_as t)).
  { apply (@tri_try _ _ _ _ _ _ _ (eqt (set_hp h1 t))).
    - eapply tri_bind; [apply Hf|]. intros b. eapply tri_bind; [apply here_link_point|]. intros (ok, pos).
      eapply (@tri_bind _ _ _ _ _ _ (fun _ => eqt (set_hp h1 t))); [destruct ok; [apply here_sup|now apply tri_ret]|]. intros [|].
      + intros st _. unfold bind. assert (C := @hash_do_link_calm V hd L uniq x pos st). destruct (do_link uniq hd L x pos st); easy.
      + intros st Hs. unfold bind. assert (C := @here_undo t u h1 h2 E2 Q2 st Hs). unfold hpM, ownM, lensM in *.
        unfold eqt in Hs. rewrite Hs in *. cbn in *. rewrite E2 in *. cbn in *. auto.
    - eapply tri_bind; [eapply here_undo; eauto|]. intros ?. now apply tri_throw. }
  exact (T (set_hp h1 t, s) eq_refl).
Qed.
Lemma here_replace t v x :
  tri (eqt t) (h_replace_ throws key eq hash uniq hd L v x) (fun r st => r = false -> same_as t st) (same_as t).
Proof.
  unfold h_replace_. apply (@tri_bind _ _ _ _ _ _ (fun _ => eqt t)).
  - apply (@tri_conseq _ _ (eqt t) _ _ (fun _ => eqt t) _ (eqt t)); auto; [sh|apply eqt_same].
  - intros [|].
    + apply (@tri_conseq _ _ (eqt t) _ _ (fun _ => eqt t) _ (eqt t)); auto using eqt_same. apply here_sup.
    + apply here_move. intros t1. apply here_bucket.
Qed.
Lemma here_modify_rb t x :
  tri (eqt t) (h_modify_rb_ throws key eq hash uniq hd L x) (fun r st => r = false -> same_as t st) (same_as t).
Proof.
  unfold h_modify_rb_. apply (@tri_bind _ _ _ _ _ _ (fun _ => eqt t)).
  - apply (@tri_conseq _ _ (eqt t) _ _ (fun _ => eqt t) _ (eqt t)); auto; [sh|apply eqt_same].
  - intros v. apply (@tri_bind _ _ _ _ _ _ (fun _ => eqt t)).
    + apply (@tri_conseq _ _ (eqt t) _ _ (fun _ => eqt t) _ (eqt t)); auto; [apply here_bucket|apply eqt_same].
    + intros b. apply (@tri_bind _ _ _ _ _ _ (fun _ => eqt t)).
      * apply (@tri_conseq _ _ (eqt t) _ _ (fun _ => eqt t) _ (eqt t)); auto; [apply here_in_place|apply eqt_same].
      * intros [|]; [|apply here_move; intros t1; sm].
        apply (@tri_conseq _ _ (eqt t) _ _ (fun _ => eqt t) _ (eqt t)); auto using eqt_same. apply here_sup.
Qed.
Lemma meek_same t m : (forall t1, tri (eqt t1) m (fun r st => r = false -> same_as t1 st) (same_as t1)) -> meek (same_as t) m.
Proof.
  intros H st Hs. specialize (H (fst st) st eq_refl). unfold same_as in *. destruct (m st); auto; [intros E|]; eapply intact_trans; eauto.
Qed.
End Here.

(** ** Checks of modifications with rollback *)
Section Check.
Variable V : Type.
Variable throws : nat -> bool.
Variable pick : list node -> node.
Variable hd : node.

Lemma check_rb_above (L : Layer V) (P : St L -> Prop) c x : (forall b s, P s -> P (bset L b s)) ->
  stays P (l_check_rb L x) ->
  stays (fun st => P (below throws pick hd c L st)) (l_check_rb (layer_of throws pick hd c L) x).
Proof.
  intros Pb H. destruct c as [K key lt uniq rk junk|jn jp|ju|K key eq hash uniq jh n0 pl]; cbn [layer_of below].
  - cbn [l_check_rb ordered]. unfold OrdIdx.o_check_rb_. apply stays_bind; [apply stays_bas; exact Pb|]. intros v.
    apply stays_bind; [now apply ord_in_place|]. intros [|]; [exact (@tri_sup OrdModel.heap _ _ _ _ _ _ H)|apply stays_ret].
  - exact (@tri_sup SeqModel.sst _ _ _ _ _ _ H).
  - exact (@tri_sup RndModel.rst _ _ _ _ _ _ H).
  - cbn [l_check_rb HashIdx.hashed]. unfold HashIdx.h_check_rb_. apply stays_bind; [apply stays_bas; exact Pb|]. intros v.
    apply stays_bind.
    + unfold HashIdx.bucket, HashIdx.hcall, HashIdx.ucall, HashIdx.get. apply stays_bind; [|intros ?; apply stays_own].
      apply stays_bind; [apply stays_bas; exact Pb|intros ?; apply stays_ret].
    + intros b. apply stays_bind; [now apply hash_in_place|]. intros [|]; [exact (@tri_sup hst _ _ _ _ _ _ H)|apply stays_ret].
Qed.
Lemma here_check_rb K (L : Layer V) (key : V -> K) eq hash uniq t x : stays (@eqt V L t) (h_check_rb_ throws key eq hash uniq L x).
Proof.
  unfold h_check_rb_. apply stays_bind; [apply here_sup|]. intros v. apply stays_bind; [apply here_bucket|]. intros b.
  apply stays_bind; [apply here_in_place|]. intros [|]; [apply here_sup|apply stays_ret].
Qed.
End Check.

(** ** Containers *)
Lemma below_bset V throws pick hd (c : code V) L b st :
  below throws pick hd c L (bset (layer_of throws pick hd c L) b st) = bset L b (below throws pick hd c L st).
Proof. now destruct c. Qed.

Section Cont.
Variables V K : Type.
Variable throws : nat -> bool.
Variable pick : list node -> node.
Variable hd : node.
Variable W : World V.
Variable key : V -> K.
Variable eq : K -> K -> bool.
Variable hash : K -> nat.
Variable uniq : bool.
Variable jh : bptr * bptr.
Variable n0 : nat.
Variable pl : policy.
Variables cs1 cs2 : list (code V).
Notation stack := (stack throws pick hd W).
Notation this := (Hashed key eq hash uniq jh n0 pl).
Notation all := (cs1 ++ this :: cs2).
(** the data of the index *)
Definition own (s : St (stack all)) : hst := fst (down throws pick hd W (this :: cs2) cs1 s).

Lemma going_down (R : forall L : Layer V, (St L -> Prop) -> Prop) (P : St (stack (this :: cs2)) -> Prop) :
  (forall b st, P st -> P (bset (stack (this :: cs2)) b st)) ->
  (forall c (L : Layer V) (P : St L -> Prop), (forall b st, P st -> P (bset L b st)) -> R L P ->
     R (layer_of throws pick hd c L) (fun st => P (below throws pick hd c L st))) ->
  R (stack (this :: cs2)) P -> R (stack all) (fun st => P (down throws pick hd W (this :: cs2) cs1 st)).
Proof.
  intros Pb Up H. assert (G : (forall b st, P (down throws pick hd W (this :: cs2) cs1 st) -> P (down throws pick hd W (this :: cs2) cs1 (bset (stack all) b st))) /\
    R (stack all) (fun st => P (down throws pick hd W (this :: cs2) cs1 st))); [|apply G].
  induction cs1 as [|c cs IH]; [split; auto|]. destruct IH as (IB & IM). cbn [down app]. split.
  - intros b st Hs. change (stack (c :: cs ++ this :: cs2)) with (layer_of throws pick hd c (stack (cs ++ this :: cs2))).
    rewrite below_bset. now apply IB.
  - exact (Up c (stack (cs ++ this :: cs2)) (fun st => P (down throws pick hd W (this :: cs2) cs st)) IB IM).
Qed.
Lemma own_bset t b s : intact t (own s) -> intact t (own (bset (stack all) b s)).
Proof.
  revert b s. apply (going_down (fun L P => forall b s, P s -> P (bset L b s)) (same_as t)); auto.
  intros c L P H _ b s. rewrite below_bset. apply H.
Qed.
Lemma replace_meek t v x : meek (fun s => intact t (own s)) (l_replace (stack all) v x).
Proof.
  apply (going_down (fun L P => meek P (l_replace L v x)) (same_as t)); auto.
  - intros c L P Pb Hm. exact (@replace_above V throws pick hd L P Pb c v x Hm).
  - apply meek_same. intros t1. apply here_replace.
Qed.
Lemma modify_rb_meek t x : meek (fun s => intact t (own s)) (l_modify_rb (stack all) x).
Proof.
  apply (going_down (fun L P => meek P (l_modify_rb L x)) (same_as t)); auto.
  - intros c L P Pb Hm. exact (@modify_rb_above V throws pick hd L P Pb c x Hm).
  - apply meek_same. intros t1. apply here_modify_rb.
Qed.
Lemma check_rb_stays t x : stays (fun s => intact t (own s)) (l_check_rb (stack all) x).
Proof.
  apply (going_down (fun L P => stays P (l_check_rb L x)) (same_as t)); auto.
  - intros c L P Pb Hm. exact (@check_rb_above V throws pick hd L P c x Pb Hm).
  - intros st Hs. assert (H := @here_check_rb V throws K (stack cs2) key eq hash uniq (fst st) x st eq_refl). unfold same_as, eqt in *.
    change (l_check_rb (stack (this :: cs2)) x st) with (h_check_rb_ throws key eq hash uniq (stack cs2) x st).
    destruct (h_check_rb_ throws key eq hash uniq (stack cs2) x st) as [r s'|s'|]; auto; exact (eq_ind_r (intact t) Hs H).
Qed.
Lemma bas_stays A t (m : M (bst V) A) : stays (fun s => intact t (own s)) (basM (stack all) m).
Proof. intros s H. unfold basM, lensM. destruct (m (bget (stack all) s)); auto using own_bset. Qed.
Lemma c_replace_meek t v x : meek (fun s => intact t (own s)) (c_replace (stack all) v x).
Proof. apply replace_meek. Qed.

Hypothesis good_set : forall b s, bget (stack all) (bset (stack all) b s) = b.
Lemma c_erase_gone P x : tri P (c_erase (stack all) x) (fun _ s => look (mem (bget (stack all) s)) x = None) (fun _ => True).
Proof.
  intros s _. unfold c_erase, bind. destruct (dec (stack all) s) as [u s1|s1|]; auto.
  destruct (l_extract (stack all) x s1) as [u' s2|s2|]; auto. unfold basM, lensM, delete_node, destroy_value, deallocate_node, bind.
  destruct (look (mem (bget (stack all) s2)) x) as [[v|]|] eqn:E; auto; cbn.
  - rewrite look_mset, Nat.eqb_refl, E. rewrite good_set. refine (eq_trans (look_mdel _ _ _) _). now rewrite Nat.eqb_refl.
Qed.
(** the element has been destroyed or the index is as it was *)
Lemma c_modify_rb_intact t f fx g gx x :
  tri (fun s => intact t (own s)) (c_modify_rb throws (stack all) f fx g gx x)
    (fun r s => r = false -> look (mem (bget (stack all) s)) x <> None -> intact t (own s)) (fun _ => True).
Proof.
  unfold c_modify_rb. apply (@tri_bind _ _ _ _ _ _ (fun _ s => intact t (own s))).
  - apply (@tri_try _ _ _ _ _ _ _ (fun s => intact t (own s))); [apply bas_stays|].
    eapply tri_bind; [apply c_erase_gone|]. intros ?. now apply tri_throw.
  - intros _. apply (@tri_bind _ _ _ _ _ _ (fun r s => r = false -> intact t (own s))).
    + apply (@tri_try _ _ _ _ _ _ _ (fun s => intact t (own s))); [apply modify_rb_meek|].
      apply (@tri_try _ _ _ _ _ _ _ (fun _ => True)).
      * intros s H. unfold bind. destruct (basM _ _ s); auto. destruct (l_check_rb _ x s0) as [[|]s1|s1|]; auto; [exact Logic.I|].
        destruct (c_erase (stack all) x s1); exact Logic.I.
      * intros s H. unfold bind. destruct (c_erase (stack all) x s); try exact Logic.I.
    + intros [|].
      * intros s _. cbn. easy.
      * apply (@tri_try _ _ _ _ _ _ _ (fun _ => True)); [|intros s H; unfold bind; destruct (c_erase (stack all) x s); try exact Logic.I].
        apply (@tri_bind _ _ _ _ _ _ (fun _ s => intact t (own s))).
        { apply (@tri_conseq _ _ (fun s => intact t (own s)) _ _ (fun _ s => intact t (own s)) _ (fun s => intact t (own s))); auto. apply bas_stays. }
        intros _. apply (@tri_bind _ _ _ _ _ _ (fun _ s => intact t (own s))).
        { apply (@tri_conseq _ _ (fun s => intact t (own s)) _ _ (fun _ s => intact t (own s)) _ (fun s => intact t (own s))); auto. apply check_rb_stays. }
        intros [|].
        { intros s H. cbn. auto. }
        { apply (@tri_bind _ _ _ _ _ _ (fun _ s => look (mem (bget (stack all) s)) x = None)); [apply c_erase_gone|].
          intros _. apply tri_ret. intros s H _ N. contradiction. }
Qed.
End Cont.
