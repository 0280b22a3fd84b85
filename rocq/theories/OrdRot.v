(** Rotations of the red-black tree. *)
From Verif Require Import Prelude OrdModel OrdTree OrdHeap.
Set Implicit Arguments.
(** moving a subtree (possibly empty) under another parent *)
Lemma wp_reparent {B} h p q t F L (k : unit -> HM B) Q Ex :
  wfc h L -> Permutation L (cells p t ++ F) ->
  (forall h', wfc h' (cells q t ++ F) -> wp (k tt) Q Ex h') ->
  wp (bind (if negb (rootp t =? null) then sp (rootp t) q else ret tt) k) Q Ex h.
Proof.
  intros W P K. apply (fun a => wfc_perm a P) in W.
  destruct t as [|c n l x r]; cbn [rootp].
  - cbn. apply wp_bind, wp_ret, K. exact W.
  - flat W. go. apply K. eapply wfc_perm; [exact W|]. cperm.
Qed.

Ltac pulla A L :=
  lazymatch L with
  | A ++ ?R => constr:(R)
  | ?p :: ?R => let r := pulla A R in constr:(p :: r)
  | ?B ++ ?R => let r := pulla A R in constr:(B ++ r)
  end.
Ltac reparent p t :=
  lazymatch goal with W : wfc ?h ?L |- wp (bind (if _ then sp _ ?q else ret tt) _) _ _ ?h =>
    let R := pulla (cells p t) L in
    eapply (@wp_reparent _ h p q t R L _ _ _ W);
    [cperm|clear dependent h; let h' := fresh "h" in intros h' W; flat W]
  end.

Ltac inord :=
  rewrite ?inorder_plug; cbn [inorder lefts rights app];
  repeat (rewrite <- app_assoc; cbn [app]); reflexivity.


Section Rot.
Variable rk : bool.
Variable hd : node.
Variable hs : nat.
Definition hcell (t : tree) : cell :=
  mk (List.hd hd (inorder t)) (last (inorder t) hd) (rootp t) Red hs.
Definition tat (h : heap) (t : tree) (F : list (node * cell)) : Prop :=
  wfc h ((hd, hcell t) :: cells hd t ++ F).

Definition noexn : heap -> Prop := fun _ => False.

Lemma relink_l h k x y l r cx F root :
  wfc h ((hd, mk l r (kroot k x) Red hs) :: (x, cx) :: ccells hd k x ++ F) ->
  cp cx = cpar hd k -> root = kroot k x ->
  wp (if x =? root then sp hd y
      else xp <- gp x ;; xpl <- gl xp ;; if x =? xpl then sl xp y else sr xp y)
     (fun _ h' => wfc h' ((hd, mk l r (kroot k y) Red hs) :: (x, cx) :: ccells hd k y ++ F))
     noexn h.
Proof.
  intros W C ->. destruct k as [|c n z s k|c n s z k]; flat W; cbn [kroot].
  - go. eapply wfc_perm; [exact W|]. cperm.
  - assert (N : x <> kroot (CL c n z s k) x).
    { eapply (@sub_neq_kroot _ _ x cx hd); [easy|exact W|]. csub. }
    cbn [kroot] in N. rewrite (proj2 (Nat.eqb_neq _ _) N). step1. rewrite C. cbn [cpar].
    go. eapply wfc_perm; [exact W|]. cperm.
  - assert (N : x <> kroot (CR c n s z k) x).
    { eapply (@sub_neq_kroot _ _ x cx hd); [easy|exact W|]. csub. }
    cbn [kroot] in N. rewrite (proj2 (Nat.eqb_neq _ _) N). step1. rewrite C. cbn [cpar]. step1.
    assert (N' : x <> rootp s) by (eapply (@sub_neq_root _ _ x cx z); [exact W|csub]).
    rewrite (proj2 (Nat.eqb_neq _ _) N').
    go. eapply wfc_perm; [exact W|]. cperm.
Qed.

Lemma relink_r h k x y l r cx F root :
  wfc h ((hd, mk l r (kroot k x) Red hs) :: (x, cx) :: ccells hd k x ++ F) ->
  cp cx = cpar hd k -> root = kroot k x ->
  wp (if x =? root then sp hd y
      else xp <- gp x ;; xpr <- gr xp ;; if x =? xpr then sr xp y else sl xp y)
     (fun _ h' => wfc h' ((hd, mk l r (kroot k y) Red hs) :: (x, cx) :: ccells hd k y ++ F))
     noexn h.
Proof.
  intros W C ->. destruct k as [|c n z s k|c n s z k]; flat W; cbn [kroot].
  - go. eapply wfc_perm; [exact W|]. cperm.
  - assert (N : x <> kroot (CL c n z s k) x).
    { eapply (@sub_neq_kroot _ _ x cx hd); [easy|exact W|]. csub. }
    cbn [kroot] in N. rewrite (proj2 (Nat.eqb_neq _ _) N). step1. rewrite C. cbn [cpar]. step1.
    assert (N' : x <> rootp s) by (eapply (@sub_neq_root _ _ x cx z); [exact W|csub]).
    rewrite (proj2 (Nat.eqb_neq _ _) N').
    go. eapply wfc_perm; [exact W|]. cperm.
  - assert (N : x <> kroot (CR c n s z k) x).
    { eapply (@sub_neq_kroot _ _ x cx hd); [easy|exact W|]. csub. }
    cbn [kroot] in N. rewrite (proj2 (Nat.eqb_neq _ _) N). step1. rewrite C. cbn [cpar].
    go. eapply wfc_perm; [exact W|]. cperm.
Qed.

Lemma relink_c h k x y l r cx F :
  wfc h ((hd, mk l r (kroot k x) Red hs) :: (x, cx) :: ccells hd k x ++ F) ->
  cp cx = cpar hd k ->
  wp (replace_child hd x y)
     (fun _ h' => wfc h' ((hd, mk l r (kroot k y) Red hs) :: (x, cx) :: ccells hd k y ++ F))
     noexn h.
Proof.
  intros W C. unfold replace_child. step1. rewrite (Nat.eqb_sym _ x).
  assert (P := @relink_l h k x y l r cx F _ W C eq_refl).
  destruct (x =? kroot k x); [exact P|].
  unfold wp, bind in *. destruct (gp x h) as [z h1| |]; auto.
  destruct (gl z h1) as [v h2| |]; auto. rewrite (Nat.eqb_sym v x). exact P.
Qed.

(** opening and closing the description of a tree at a focus *)
Lemma tat_open h k t F : tat h (plug k t) F ->
  wfc h ((hd, mk (List.hd hd (inorder (plug k t))) (last (inorder (plug k t)) hd)
              (kroot k (rootp t)) Red hs)
         :: cells (cpar hd k) t ++ ccells hd k (rootp t) ++ F).
Proof.
  unfold tat, hcell. rewrite rootp_plug. intros W. eapply wfc_perm; [exact W|]. cperm.
Qed.
Lemma tat_close h k t F t0 L :
  wfc h L ->
  inorder (plug k t) = inorder t0 ->
  Permutation L ((hd, mk (List.hd hd (inorder t0)) (last (inorder t0) hd)
              (kroot k (rootp t)) Red hs)
         :: cells (cpar hd k) t ++ ccells hd k (rootp t) ++ F) ->
  tat h (plug k t) F.
Proof.
  unfold tat, hcell. rewrite rootp_plug. intros W -> P. apply (fun a => wfc_perm a P) in W.
  eapply wfc_perm; [exact W|]. clear P. cperm.
Qed.

Lemma wp_frame_bind {A B} (m : HM A) (k : A -> HM B) (Q' : A -> heap -> Prop) Q Ex h :
  wp m Q' noexn h -> (forall a h', Q' a h' -> wp (k a) Q Ex h') -> wp (bind m k) Q Ex h.
Proof.
  unfold wp, bind, noexn. destruct (m h); intros H K; try contradiction. now apply K.
Qed.

Lemma wp_node_size {B} h L p t (k : nat -> HM B) Q Ex :
  wfc h L -> (forall q, ccount (cells p t) q <= ccount L q) ->
  wp (k (cnt t)) Q Ex h -> wp (bind (node_size (rootp t)) k) Q Ex h.
Proof.
  intros W H K. unfold node_size. destruct t as [|c n l x r]; cbn [rootp cnt] in *.
  - cbn. apply wp_bind, wp_ret, K.
  - destruct (wfc_sub _ W H) as (L' & W'). flat W'. clear W. rename W' into W. go. exact K.
Qed.

Definition rsz (n m : nat) : nat := if rk then n else m.

Lemma wp_rank_rotate h L L' x y cx cy a b :
  wfc h L -> Permutation L ((x, cx) :: (y, cy) :: cells x a ++ cells x b ++ L') ->
  cl cx = rootp a -> cr cx = rootp b ->
  wp (rank_rotate rk x y)
    (fun _ h' => wfc h' ((x, mk (cl cx) (cr cx) (cp cx) (cc cx) (rsz (cnt a + cnt b + 1) (cs cx)))
       :: (y, mk (cl cy) (cr cy) (cp cy) (cc cy) (rsz (cs cx) (cs cy)))
       :: cells x a ++ cells x b ++ L')) noexn h.
Proof.
  intros W P Ha Hb. apply (fun a => wfc_perm a P) in W. unfold rank_rotate, rsz.
  destruct cx as [xl xr xp xc xs], cy as [yl yr yp yc ys]. cbn [cl cr cp cc cs] in *. subst.
  destruct rk.
  - go. eapply wp_node_size with (p := x); [exact W|csub|].
    go. eapply wp_node_size with (p := x); [exact W|csub|].
    go. exact W.
  - apply wp_ret. exact W.
Qed.

Ltac do_rank_rotate x y a b :=
  lazymatch goal with W : wfc ?h ?L |- _ =>
    let r := pull x L in lazymatch r with (?cx, ?L1) =>
    let r := pull y L1 in lazymatch r with (?cy, ?L2) =>
    let L3 := pulla (cells x a) L2 in
    let L4 := pulla (cells x b) L3 in
    eapply wp_conseq;
    [ eapply (@wp_rank_rotate h L L4 x y cx cy a b W); [cperm|reflexivity|reflexivity]
    | clear dependent h; intros ? ? W; cbv beta in W; cbn [cl cr cp cc cs] in W; flat W
    | auto ]
    end end end.

Lemma rotate_left_spec h k c n a x c' n' b y d F :
  tat h (plug k (T c n a x (T c' n' b y d))) F ->
  wp (rotate_left rk hd x)
     (fun _ h' => tat h' (plug k (T c' (rsz n n') (T c (rsz (cnt a + cnt b + 1) n) a x b) y d)) F)
     noexn h.
Proof.
  intros W. apply tat_open in W. flat W. unfold rotate_left. go.
  reparent y b. go.
  eapply wp_frame_bind.
  { apply relink_l with (k := k) (y := y) (l := List.hd hd (inorder (plug k (T c n a x (T c' n' b y d)))))
      (r := last (inorder (plug k (T c n a x (T c' n' b y d)))) hd)
      (cx := mk (rootp a) (rootp b) (cpar hd k) c n)
      (F := cells x b ++ (y, mk (rootp b) (rootp d) (cpar hd k) c' n') :: cells x a ++ cells y d ++ F);
      [|reflexivity|reflexivity].
    eapply wfc_perm; [exact W|]. cperm. }
  clear W. intros u h1 W. cbv beta in W. flat W. go.
  do_rank_rotate x y a b.
  eapply (@tat_close _ k _ F (plug k (T c n a x (T c' n' b y d)))); [exact W| |].
  - inord.
  - cperm.
Qed.

Lemma rotate_right_spec h k c n d x c' n' a y b F :
  tat h (plug k (T c n (T c' n' a y b) x d)) F ->
  wp (rotate_right rk hd x)
     (fun _ h' => tat h' (plug k (T c' (rsz n n') a y (T c (rsz (cnt b + cnt d + 1) n) b x d))) F)
     noexn h.
Proof.
  intros W. apply tat_open in W. flat W. unfold rotate_right. go.
  reparent y b. go.
  eapply wp_frame_bind.
  { apply relink_r with (k := k) (y := y) (l := List.hd hd (inorder (plug k (T c n (T c' n' a y b) x d))))
      (r := last (inorder (plug k (T c n (T c' n' a y b) x d))) hd)
      (cx := mk (rootp b) (rootp d) (cpar hd k) c n)
      (F := cells x b ++ (y, mk (rootp a) (rootp b) (cpar hd k) c' n') :: cells y a ++ cells x d ++ F);
      [|reflexivity|reflexivity].
    eapply wfc_perm; [exact W|]. cperm. }
  clear W. intros u h1 W. cbv beta in W. flat W. go.
  do_rank_rotate x y b d.
  eapply (@tat_close _ k _ F (plug k (T c n (T c' n' a y b) x d))); [exact W| |].
  - inord.
  - cperm.
Qed.
End Rot.
