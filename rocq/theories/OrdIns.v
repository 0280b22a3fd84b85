(** Insertion in the red-black tree: rank bookkeeping, rebalancing, linking. *)
From Verif Require Import Prelude OrdModel OrdTree OrdHeap OrdRot.
Set Implicit Arguments.

Definition recol (c : color) (t : tree) : tree :=
  match t with E => E | T _ n l x r => T c n l x r end.
Lemma inorder_recol c t : inorder (recol c t) = inorder t.
Proof. now destruct t. Qed.
Lemma rootp_recol c t : rootp (recol c t) = rootp t.
Proof. now destruct t. Qed.
Lemma size_recol c t : size (recol c t) = size t.
Proof. now destruct t. Qed.
Lemma cnt_recol c t : cnt (recol c t) = cnt t.
Proof. now destruct t. Qed.
Lemma sized_recol c t : sized (recol c t) <-> sized t.
Proof. now destruct t. Qed.
Lemma norr_black t : norr t -> norr (recol Black t).
Proof. destruct t; cbn; intuition discriminate. Qed.
Lemma colr_black t : colr (recol Black t) = Black.
Proof. now destruct t. Qed.
Lemma cnt_size t : sized t -> cnt t = size t.
Proof. destruct t; cbn; tauto. Qed.
Lemma bh_black t m : bh t m -> colr t = Red -> bh (recol Black t) (S m).
Proof. intros B. destruct B; cbn; try discriminate. now constructor. Qed.
Lemma bh_black_any t m : bh t m -> exists m', bh (recol Black t) m'.
Proof. intros B. destruct B; cbn; eexists; econstructor; eauto. Qed.
Lemma recol_same t c : colr t = c -> recol c t = t.
Proof. now destruct t; cbn; intros <-. Qed.

Section Ins.
Variable rk : bool.
Variable hd : node.
Variable hs : nat.
Notation tat := (tat hd hs).
Notation rsz := (rsz rk).

Definition szd (t : tree) : Prop := rk = true -> sized t.

Lemma szd_rotl k c n a x c' n' b y d :
  szd (plug k (T c n a x (T c' n' b y d))) ->
  szd (plug k (T c' (rsz n n') (T c (rsz (cnt a + cnt b + 1) n) a x b) y d)).
Proof.
  unfold szd, OrdRot.rsz. intros H R. specialize (H R). rewrite R. rewrite sized_plug in *.
  cbn in *. destruct H as ((-> & Sa & -> & Sb & Sd) & K).
  rewrite (cnt_size _ Sa), (cnt_size _ Sb). splits; auto; try lia.
  replace (size a + size b + 1 + size d + 1) with (size a + (size b + size d + 1) + 1) by lia. auto.
Qed.
Lemma szd_rotr k c n d x c' n' a y b :
  szd (plug k (T c n (T c' n' a y b) x d)) ->
  szd (plug k (T c' (rsz n n') a y (T c (rsz (cnt b + cnt d + 1) n) b x d))).
Proof.
  unfold szd, OrdRot.rsz. intros H R. specialize (H R). rewrite R. rewrite sized_plug in *.
  cbn in *. destruct H as ((-> & (-> & Sa & Sb) & Sd) & K).
  rewrite (cnt_size _ Sd), (cnt_size _ Sb). splits; auto; try lia.
  replace (size a + (size b + size d + 1) + 1) with (size a + size b + 1 + size d + 1) by lia. auto.
Qed.

(** colours do not matter for the counts *)
Lemma szd_ext k t t' : (sized t <-> sized t') -> size t = size t' -> szd (plug k t) -> szd (plug k t').
Proof. unfold szd. intros H Hs S R. specialize (S R). rewrite sized_plug in *. rewrite <- Hs. tauto. Qed.

Lemma wp_nonnull_red {B} h L p t (k : bool -> HM B) Q Ex :
  wfc h L -> (forall q, ccount (cells p t) q <= ccount L q) ->
  wp (k (is_red (colr t))) Q Ex h -> wp (bind (nonnull_red (rootp t)) k) Q Ex h.
Proof.
  intros W H K. unfold nonnull_red. destruct t as [|c n l x r]; cbn [rootp colr] in *.
  - cbn. apply wp_bind, wp_ret, K.
  - destruct (wfc_sub _ W H) as (L' & W'). flat W'. clear W. rename W' into W. go. exact K.
Qed.
Lemma wp_null_or_black {B} h L p t (k : bool -> HM B) Q Ex :
  wfc h L -> (forall q, ccount (cells p t) q <= ccount L q) ->
  wp (k (is_black (colr t))) Q Ex h -> wp (bind (null_or_black (rootp t)) k) Q Ex h.
Proof.
  intros W H K. unfold null_or_black. destruct t as [|c n l x r]; cbn [rootp colr] in *.
  - cbn. apply wp_bind, wp_ret, K.
  - destruct (wfc_sub _ W H) as (L' & W'). flat W'. clear W. rename W' into W. go. exact K.
Qed.
Lemma wp_blacken {B} h L p t F (k : unit -> HM B) Q Ex :
  wfc h L -> Permutation L (cells p t ++ F) ->
  (forall h', wfc h' (cells p (recol Black t) ++ F) -> wp (k tt) Q Ex h') ->
  wp (bind (blacken (rootp t)) k) Q Ex h.
Proof.
  intros W P K. apply (fun a => wfc_perm a P) in W. unfold blacken.
  destruct t as [|c n l x r]; cbn [rootp recol] in *.
  - cbn. apply wp_bind, wp_ret, K. exact W.
  - flat W. go. apply K. eapply wfc_perm; [exact W|]. cperm.
Qed.

Ltac nnr P0 t0 := lazymatch goal with W : wfc _ _ |- _ =>
  eapply (@wp_nonnull_red _ _ _ P0 t0); [exact W|csub|] end.
Ltac close t0 := lazymatch goal with W : wfc _ _ |- OrdRot.tat _ _ _ (plug ?k _) _ =>
  eapply (@tat_close hd hs _ k _ _ t0 _ W); [inord|cperm] end.

(** ** The loop of rebalance *)
Lemma reb_stop f k n a x b F h (Q : unit -> heap -> Prop) :
  tat h (plug k (T Red n a x b)) F -> kcol k = Black -> Q tt h ->
  wp (reb_loop rk hd (S f) x) Q noexn h.
Proof.
  intros W C H. apply tat_open in W. cbn [reb_loop].
  destruct k as [|c m z s k|c m s z k]; flat W; cbn in C; subst.
  - go. exact H.
  - ne_kroot N x hd (CL Black m z s k) x. step1. rewrite N. go. exact H.
  - ne_kroot N x hd (CR Black m s z k) x. step1. rewrite N. go. exact H.
Qed.

(** the outer case: x and its parent are both left children *)
Lemma reb_left_outer h k n a x b np p s ng g u F :
  tat h (plug k (T Black ng (T Red np (T Red n a x b) p s) g u)) F ->
  wp (xp <- gp x ;; sc xp Black ;;;
      xp <- gp x ;; xpp <- gp xp ;; sc xpp Red ;;;
      xp <- gp x ;; xpp <- gp xp ;; rotate_right rk hd xpp ;;;
      ret x)
   (fun r h' => r = x /\
      tat h' (plug k (T Black (rsz ng np) (T Red n a x b) p (T Red (rsz (cnt s + cnt u + 1) ng) s g u))) F)
   noexn h.
Proof.
  intros W. apply tat_open in W. flat W. go.
  eapply wp_frame_bind.
  { apply rotate_right_spec with (k := k) (c := Red) (n := ng) (d := u) (c' := Black) (n' := np)
      (a := T Red n a x b) (y := p) (b := s) (F := F) (hs := hs).
    close (plug k (T Black ng (T Red np (T Red n a x b) p s) g u)). }
  clear dependent h. intros r h1 W1. cbv beta in W1. apply wp_ret. auto.
Qed.
Lemma reb_right_outer h k n a x b np p s ng g u F :
  tat h (plug k (T Black ng u g (T Red np s p (T Red n a x b)))) F ->
  wp (xp <- gp x ;; sc xp Black ;;;
      xp <- gp x ;; xpp <- gp xp ;; sc xpp Red ;;;
      xp <- gp x ;; xpp <- gp xp ;; rotate_left rk hd xpp ;;;
      ret x)
   (fun r h' => r = x /\
      tat h' (plug k (T Black (rsz ng np) (T Red (rsz (cnt u + cnt s + 1) ng) u g s) p (T Red n a x b))) F)
   noexn h.
Proof.
  intros W. apply tat_open in W. flat W. go.
  eapply wp_frame_bind.
  { apply rotate_left_spec with (k := k) (c := Red) (n := ng) (a := u) (c' := Black) (n' := np)
      (d := T Red n a x b) (y := p) (b := s) (F := F) (hs := hs).
    close (plug k (T Black ng u g (T Red np s p (T Red n a x b)))). }
  clear dependent h. intros r h1 W1. cbv beta in W1. apply wp_ret. auto.
Qed.


(** ** One step of the loop *)
Definition reb_post (t0 : tree) (m : nat) (F : list (node * cell)) (h' : heap) : Prop :=
  exists t', tat h' t' F /\ inorder t' = inorder t0 /\ norr t' /\ bh t' m /\ szd t'.

Lemma reb_post_ext t0 t1 m F h : inorder t0 = inorder t1 -> reb_post t0 m F h -> reb_post t1 m F h.
Proof. intros H (t' & A & B & C). exists t'. rewrite <- H. auto. Qed.

(** body, uncle red *)
Lemma reb_recolor_L h k n a x b np p s ng g u F (px : bool) :
  let P c t := if px then T c np t p s else T c np s p t in
  tat h (plug k (T Black ng (P Red (T Red n a x b)) g u)) F -> u <> E ->
  wp (reb_recolor x (rootp u))
     (fun r h' => r = g /\ tat h' (plug k (T Red ng (P Black (T Red n a x b)) g (recol Black u))) F) noexn h.
Proof.
  intros P W U. destruct u as [|cu nu ul ux ur]; [easy|]. clear U.
  apply tat_open in W. unfold reb_recolor, P in *. destruct px; flat W; cbn [rootp]; go;
    (split; [reflexivity|]); cbn [recol].
  - close (plug k (T Black ng (T Red np (T Red n a x b) p s) g (T cu nu ul ux ur))).
  - close (plug k (T Black ng (T Red np s p (T Red n a x b)) g (T cu nu ul ux ur))).
Qed.
Lemma reb_recolor_R h k n a x b np p s ng g u F (px : bool) :
  let P c t := if px then T c np t p s else T c np s p t in
  tat h (plug k (T Black ng u g (P Red (T Red n a x b)))) F -> u <> E ->
  wp (reb_recolor x (rootp u))
     (fun r h' => r = g /\ tat h' (plug k (T Red ng (recol Black u) g (P Black (T Red n a x b)))) F) noexn h.
Proof.
  intros P W U. destruct u as [|cu nu ul ux ur]; [easy|]. clear U.
  apply tat_open in W. unfold reb_recolor, P in *. destruct px; flat W; cbn [rootp]; go;
    (split; [reflexivity|]); cbn [recol].
  - close (plug k (T Black ng (T cu nu ul ux ur) g (T Red np (T Red n a x b) p s))).
  - close (plug k (T Black ng (T cu nu ul ux ur) g (T Red np s p (T Red n a x b)))).
Qed.

(** body, uncle black: the four shapes *)
Lemma reb_left_L h k n a x b np p s ng g u F :
  tat h (plug k (T Black ng (T Red np (T Red n a x b) p s) g u)) F ->
  wp (reb_left rk hd x)
   (fun r h' => r = x /\
      tat h' (plug k (T Black (rsz ng np) (T Red n a x b) p (T Red (rsz (cnt s + cnt u + 1) ng) s g u))) F)
   noexn h.
Proof.
  intros W0. assert (W := W0). apply tat_open in W. flat W. unfold reb_left. go.
  ne_rootp N x p s. rewrite N. step1. clear W. now apply reb_left_outer.
Qed.
Lemma reb_left_R h k n a x b np p s ng g u F :
  tat h (plug k (T Black ng (T Red np s p (T Red n a x b)) g u)) F ->
  wp (reb_left rk hd x)
   (fun r h' => r = p /\
      tat h' (plug k (T Black (rsz ng (rsz np n)) (T Red (rsz (cnt s + cnt a + 1) np) s p a) x
                (T Red (rsz (cnt b + cnt u + 1) ng) b g u))) F)
   noexn h.
Proof.
  intros W0. assert (W := W0). apply tat_open in W. flat W. unfold reb_left. go. clear W.
  eapply wp_frame_bind.
  { eapply rotate_left_spec with (k := CL Black ng g u k). exact W0. }
  clear W0. intros r h1 W. cbv beta in W. go. cbn [plug] in W.
  eapply wp_conseq; [apply (@reb_left_outer _ k _ _ _ _ _ _ _ _ _ _ _ W)| |auto]. auto.
Qed.
Lemma reb_right_R h k n a x b np p s ng g u F :
  tat h (plug k (T Black ng u g (T Red np s p (T Red n a x b)))) F ->
  wp (reb_right rk hd x)
   (fun r h' => r = x /\
      tat h' (plug k (T Black (rsz ng np) (T Red (rsz (cnt u + cnt s + 1) ng) u g s) p (T Red n a x b))) F)
   noexn h.
Proof.
  intros W0. assert (W := W0). apply tat_open in W. flat W. unfold reb_right. go.
  ne_rootp N x p s. rewrite N. step1. clear W. now apply reb_right_outer.
Qed.
Lemma reb_right_L h k n a x b np p s ng g u F :
  tat h (plug k (T Black ng u g (T Red np (T Red n a x b) p s))) F ->
  wp (reb_right rk hd x)
   (fun r h' => r = p /\
      tat h' (plug k (T Black (rsz ng (rsz np n)) (T Red (rsz (cnt u + cnt a + 1) ng) u g a) x
                (T Red (rsz (cnt b + cnt s + 1) np) b p s))) F)
   noexn h.
Proof.
  intros W0. assert (W := W0). apply tat_open in W. flat W. unfold reb_right. go. clear W.
  eapply wp_frame_bind.
  { eapply rotate_right_spec with (k := CR Black ng u g k). exact W0. }
  clear W0. intros r h1 W. cbv beta in W. go. cbn [plug] in W.
  eapply wp_conseq; [apply (@reb_right_outer _ k _ _ _ _ _ _ _ _ _ _ _ W)| |auto]. auto.
Qed.

(** ** The loop *)
Lemma is_red_false c : is_red c = false -> c = Black.
Proof. now destruct c. Qed.
Lemma is_red_true c : is_red c = true -> c = Red.
Proof. now destruct c. Qed.

(** the tests made before the body: x is not the root, its parent is red *)
Ltac rebsplit :=
  lazymatch goal with |- wp (bind (if ?b then _ else _) _) _ _ _ => destruct b eqn:Cu end.
Lemma szd_recol_L k n a x b np p s ng g u (px : bool) c1 c2 c3 u' :
  let P c t := if px then T c np t p s else T c np s p t in
  (sized u' <-> sized u) -> size u' = size u ->
  szd (plug k (T c1 ng (P c2 (T Red n a x b)) g u)) ->
  szd (plug k (T c3 ng (P Black (T Red n a x b)) g u')).
Proof.
  intros P H Hs. apply szd_ext; unfold P; destruct px; cbn; rewrite ?H, ?Hs; tauto.
Qed.
Lemma szd_recol_R k n a x b np p s ng g u (px : bool) c1 c2 c3 u' :
  let P c t := if px then T c np t p s else T c np s p t in
  (sized u' <-> sized u) -> size u' = size u ->
  szd (plug k (T c1 ng u g (P c2 (T Red n a x b)))) ->
  szd (plug k (T c3 ng u' g (P Black (T Red n a x b)))).
Proof.
  intros P H Hs. apply szd_ext; unfold P; destruct px; cbn; rewrite ?H, ?Hs; tauto.
Qed.

Ltac bhinv := repeat match goal with
  | H : bh (T Red _ _ _ _) _ |- _ => inversion H; subst; clear H
  | H : bh (T Black _ _ _ _) _ |- _ => inversion H; subst; clear H
  | H : bh E _ |- _ => inversion H; subst; clear H
  end.

Lemma reb_loop_spec fuel : forall k n a x b F h m j,
  tat h (plug k (T Red n a x b)) F ->
  norr (T Red n a x b) -> krr k -> kblack k -> bh (T Red n a x b) j -> kbh k j m ->
  szd (plug k (T Red n a x b)) -> klen k + 1 < fuel ->
  wp (reb_loop rk hd fuel x) (fun _ h' => reb_post (plug k (T Red n a x b)) m F h') noexn h.
Proof.
  induction fuel as [|f IH]; intros k n a x b F h m j W0 NR KR KB B KH SZ Fu; [lia|].
  destruct (kcol k) eqn:KC.
  2:{ eapply reb_stop; [exact W0|exact KC|]. exists (plug k (T Red n a x b)). splits; auto.
      - apply norr_plug. splits; auto. now rewrite KC.
      - apply bh_plug. eauto. }
  assert (KS : exists px np p s k1, k = if px : bool then CL Red np p s k1 else CR Red np s p k1).
  { destruct k as [|c np p s k1|c np s p k1]; cbn in KC; subst; [easy| |].
    - now exists true, np, p, s, k1.
    - now exists false, np, p, s, k1. }
  destruct KS as (px & np & p & s & k1 & ->).
  assert (K1 : norr s /\ krr k1 /\ colr s = Black /\ kcol k1 = Black /\ kblack k1 /\ k1 <> Top /\
               bh s j /\ kbh k1 j m).
  { destruct px; cbn in KR, KH, KB; destruct KR as (A1 & A2 & A3 & A4); destruct KH;
      (destruct k1; [easy| |]); splits; auto; try easy;
      (destruct (kcol _) eqn:Q in *; auto; specialize (A4 eq_refl); discriminate). }
  destruct K1 as (Ns & KR1 & Cs & KC1 & KB1 & T1 & Bs & KH1).
  assert (L1 : klen k1 + 2 < S f) by (destruct px; cbn in Fu; lia).
  clear KR KB KH KC Fu.
  assert (KS : exists pg ng g u k2, k1 = if pg : bool then CL Black ng g u k2 else CR Black ng u g k2).
  { destruct k1 as [|c ng g u k2|c ng u g k2]; cbn in KC1; subst; [easy| |].
    - now exists true, ng, g, u, k2.
    - now exists false, ng, g, u, k2. }
  destruct KS as (pg & ng & g & u & k2 & ->).
  assert (K2 : norr u /\ krr k2 /\ bh u j /\ kbh k2 (S j) m /\ (k2 = Top \/ kblack k2)).
  { destruct pg; cbn in KR1, KH1, KB1; destruct KR1 as (A1 & A2 & A3 & A4); destruct KH1;
      splits; auto; destruct k2; auto. }
  destruct K2 as (Nu & KR2 & Bu & KH2 & KB2).
  assert (KB2' : kblack k2) by (destruct KB2; [now subst|auto]).
  assert (L2 : klen k2 + 3 < S f) by (destruct pg; cbn in L1; lia).
  clear T1 KC1 KB1 KR1 KH1 L1 KB2. bhinv.
  cbn in NR. destruct NR as (Na & Nb & NR). destruct (NR eq_refl) as (Ca & Cb). clear NR.
  cbn [reb_loop].
  assert (W := W0).
  destruct px, pg; cbn [plug] in W0, W, SZ |- *; apply tat_open in W; flat W.
  - (* LL *)
    ne_kroot N x hd (CL Red np p s (CL Black ng g u k2)) x. step1. rewrite N. clear N. cbv iota. go. cbn [is_red negb]. go.
    nnr g u. clear W. rebsplit.
    + apply is_red_true in Cu.
      eapply wp_frame_bind; [apply (@reb_recolor_L h k2 n a x b np p s ng g u F true W0); now intros ->|].
      clear W0. intros r h1 (-> & W1). cbn match in W1.
      eapply wp_conseq; [eapply IH with (j := S (j)); [exact W1| | | | |exact KH2| |lia]| |auto].
      * cbn. rewrite ?colr_black. splits; auto using norr_black; try discriminate.
        all: intros _; splits; auto; discriminate.
      * auto.
      * auto.
      * repeat constructor; auto; apply bh_black; auto.
      * revert SZ. apply (@szd_recol_L k2 n a x b np p s ng g u true Black Red Red).
        -- apply sized_recol.
        -- apply size_recol.
      * intros ? h2. apply reb_post_ext. rewrite !inorder_plug. cbn. now rewrite ?inorder_recol.
    + apply is_red_false in Cu.
      eapply wp_frame_bind; [apply (@reb_left_L h k2 n a x b np p s ng g u F W0)|].
      clear W0. intros r h1 (-> & W1). destruct f as [|f]; [lia|].
      eapply reb_stop with (k := (CL Black _ p _ k2)); [exact W1|reflexivity|].
      eexists. splits; [exact W1|inord| | |].
      * apply norr_plug. cbn. splits; auto; try discriminate; auto.
      * apply bh_plug. eexists. split; [|exact KH2]. repeat constructor; auto.
      * revert SZ. intros SZ. apply szd_rotr. revert SZ. apply szd_ext; cbn; tauto.
  - (* LR *)
    ne_kroot N x hd (CL Red np p s (CR Black ng u g k2)) x. step1. rewrite N. clear N. cbv iota. go. cbn [is_red negb]. go.
    ne_rootp N p g u. rewrite N. clear N. go.
    nnr g u. clear W. rebsplit.
    + apply is_red_true in Cu.
      eapply wp_frame_bind; [apply (@reb_recolor_R h k2 n a x b np p s ng g u F true W0); now intros ->|].
      clear W0. intros r h1 (-> & W1). cbn match in W1.
      eapply wp_conseq; [eapply IH with (j := S (j)); [exact W1| | | | |exact KH2| |lia]| |auto].
      * cbn. rewrite ?colr_black. splits; auto using norr_black; try discriminate.
        all: intros _; splits; auto; discriminate.
      * auto.
      * auto.
      * repeat constructor; auto; apply bh_black; auto.
      * revert SZ. apply (@szd_recol_R k2 n a x b np p s ng g u true Black Red Red).
        -- apply sized_recol.
        -- apply size_recol.
      * intros ? h2. apply reb_post_ext. rewrite !inorder_plug. cbn. now rewrite ?inorder_recol.
    + apply is_red_false in Cu.
      eapply wp_frame_bind; [apply (@reb_right_L h k2 n a x b np p s ng g u F W0)|].
      clear W0. intros r h1 (-> & W1). destruct f as [|f]; [lia|].
      eapply reb_stop with (k := (CR Black _ _ x k2)); [exact W1|reflexivity|].
      eexists. splits; [exact W1|inord| | |].
      * apply norr_plug. cbn. splits; auto; try discriminate; auto.
      * apply bh_plug. eexists. split; [|exact KH2]. repeat constructor; auto.
      * apply szd_rotr with (k := (CR Black ng u g k2)) in SZ. cbn [plug] in SZ.
        apply szd_rotl. revert SZ. apply szd_ext; cbn; tauto.
  - (* RL *)
    ne_kroot N x hd (CR Red np s p (CL Black ng g u k2)) x. step1. rewrite N. clear N. cbv iota. go. cbn [is_red negb]. go.
    nnr g u. clear W. rebsplit.
    + apply is_red_true in Cu.
      eapply wp_frame_bind; [apply (@reb_recolor_L h k2 n a x b np p s ng g u F false W0); now intros ->|].
      clear W0. intros r h1 (-> & W1). cbn match in W1.
      eapply wp_conseq; [eapply IH with (j := S (j)); [exact W1| | | | |exact KH2| |lia]| |auto].
      * cbn. rewrite ?colr_black. splits; auto using norr_black; try discriminate.
        all: intros _; splits; auto; discriminate.
      * auto.
      * auto.
      * repeat constructor; auto; apply bh_black; auto.
      * revert SZ. apply (@szd_recol_L k2 n a x b np p s ng g u false Black Red Red).
        -- apply sized_recol.
        -- apply size_recol.
      * intros ? h2. apply reb_post_ext. rewrite !inorder_plug. cbn. now rewrite ?inorder_recol.
    + apply is_red_false in Cu.
      eapply wp_frame_bind; [apply (@reb_left_R h k2 n a x b np p s ng g u F W0)|].
      clear W0. intros r h1 (-> & W1). destruct f as [|f]; [lia|].
      eapply reb_stop with (k := (CL Black _ x _ k2)); [exact W1|reflexivity|].
      eexists. splits; [exact W1|inord| | |].
      * apply norr_plug. cbn. splits; auto; try discriminate; auto.
      * apply bh_plug. eexists. split; [|exact KH2]. repeat constructor; auto.
      * apply szd_rotl with (k := (CL Black ng g u k2)) in SZ. cbn [plug] in SZ.
        apply szd_rotr. revert SZ. apply szd_ext; cbn; tauto.
  - (* RR *)
    ne_kroot N x hd (CR Red np s p (CR Black ng u g k2)) x. step1. rewrite N. clear N. cbv iota. go. cbn [is_red negb]. go.
    ne_rootp N p g u. rewrite N. clear N. go.
    nnr g u. clear W. rebsplit.
    + apply is_red_true in Cu.
      eapply wp_frame_bind; [apply (@reb_recolor_R h k2 n a x b np p s ng g u F false W0); now intros ->|].
      clear W0. intros r h1 (-> & W1). cbn match in W1.
      eapply wp_conseq; [eapply IH with (j := S (j)); [exact W1| | | | |exact KH2| |lia]| |auto].
      * cbn. rewrite ?colr_black. splits; auto using norr_black; try discriminate.
        all: intros _; splits; auto; discriminate.
      * auto.
      * auto.
      * repeat constructor; auto; apply bh_black; auto.
      * revert SZ. apply (@szd_recol_R k2 n a x b np p s ng g u false Black Red Red).
        -- apply sized_recol.
        -- apply size_recol.
      * intros ? h2. apply reb_post_ext. rewrite !inorder_plug. cbn. now rewrite ?inorder_recol.
    + apply is_red_false in Cu.
      eapply wp_frame_bind; [apply (@reb_right_R h k2 n a x b np p s ng g u F W0)|].
      clear W0. intros r h1 (-> & W1). destruct f as [|f]; [lia|].
      eapply reb_stop with (k := (CR Black _ _ p k2)); [exact W1|reflexivity|].
      eexists. splits; [exact W1|inord| | |].
      * apply norr_plug. cbn. splits; auto; try discriminate; auto.
      * apply bh_plug. eexists. split; [|exact KH2]. repeat constructor; auto.
      * revert SZ. intros SZ. apply szd_rotl. revert SZ. apply szd_ext; cbn; tauto.
Qed.
End Ins.
