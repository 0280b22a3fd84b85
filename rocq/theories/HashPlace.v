(** in_place of hashed indices tells whether an element whose value has changed is still where
    it should be. *)
From Verif Require Import Prelude Layer LayerBase HashModel HashIdx HashHeap HashAlg HashLink HashLay HashOps HashRead HashSpec HashPoint.
Set Implicit Arguments.

(** ** The loops on lists *)
Section Pure.
Variable p : node -> bool.
Variable x : node.
Definition second (g : list node) : node := match g with _ :: s :: _ => s | _ => 0 end.
Definition has (g : list node) : bool := existsb (Nat.eqb x) g.
Fixpoint npl (J : list (list node)) (found : bool) (rs : nat) : bool :=
  match J with
  | [] => found
  | g :: r =>
    if 2 <? length g then
      if first_of g =? x then p (second g)
      else if p (first_of g) then if found then false else has g
      else if (rs =? 1) && negb found then false
      else if rs =? 2 then found
      else npl r found 0
    else if first_of g =? x then if rs =? 1 then true else npl r true 1
    else if p (first_of g) then
      if (rs =? 0) && found then false
      else if (rs =? 1) && negb found then false
      else if rs =? 2 then false
      else npl r found (S rs)
    else if (rs =? 1) && negb found then false
    else if rs =? 2 then found
    else npl r found 0
  end.
Fixpoint upl (J : list (list node)) (found : bool) : bool :=
  match J with
  | [] => found
  | g :: r => if first_of g =? x then upl r true else if p (first_of g) then false else upl r found
  end.

Definition clean (J : list (list node)) : Prop := forall g y, In g J -> In y g -> y <> x -> p y = false.
Lemma clean_cons g J : clean (g :: J) <-> (forall y, In y g -> y <> x -> p y = false) /\ clean J.
Proof.
  unfold clean. split.
  - intros H. split; [intros; eapply H; eauto; now left|]. intros g' y Hg. apply H. now right.
  - intros (H1 & H2) g' y [<-|Hg]; eauto.
Qed.

Lemma single_or g : shaped g -> (exists y, g = [y]) \/ (2 <? length g) = true.
Proof.
  intros [H|H]; [left; destruct g as [|y [|]]; cbn in H; try lia; eauto|right]. apply Nat.ltb_lt. lia.
Qed.
Lemma second_in g : (2 <? length g) = true -> In (second g) g /\ (NoDup g -> second g <> first_of g) /\ In (first_of g) g.
Proof.
  intros H. apply Nat.ltb_lt in H. destruct g as [|a [|b g]]; cbn in *; try lia. repeat split; auto.
  intros N E. inversion N as [|? ? X _]; subst. apply X. now left.
Qed.

(** an initial part without other equivalent elements *)
Lemma npl_clean J R : clean J -> Forall shaped J -> Forall (@NoDup node) J -> NoDup (concat J) ->
  npl (J ++ R) false 0 = false \/
  npl (J ++ R) false 0 = npl R false 0 \/
  (exists A, J = A ++ [[x]] /\ npl (J ++ R) false 0 = npl R true 1) \/
  (exists A B, J = A ++ [x] :: B /\ npl (J ++ R) false 0 = npl R true 0).
Proof.
  intros C S N ND. induction J as [|g J IH]; [auto|].
  apply clean_cons in C as (Cg & C). inversion S as [|? ? Sg S']; subst. inversion N as [|? ? Ng N']; subst.
  cbn [concat] in ND. apply NoDup_app_iff in ND as (_ & ND & Dj). specialize (IH C S' N' ND).
  destruct (single_or Sg) as [(y & ->)|Hg].
  - cbn [app npl length Nat.ltb Nat.leb first_of List.hd]. destruct (Nat.eqb_spec y x) as [->|Ny].
    + cbn [Nat.eqb]. right; right.
      assert (Cl : forall r, npl (J ++ R) true r = npl (J ++ R) true r) by reflexivity. clear Cl.
      assert (Nx : forall g, In g J -> ~ In x g).
      { intros g Hg Hx. apply (Dj x); [now left|]. apply in_concat. eauto. }
      assert (Cl : forall r, r <> 2 -> J = [] \/ npl (J ++ R) true r = npl R true 0).
      { clear IH Dj Cg Sg Ng S N ND N'. induction J as [|g J IHJ]; intros r Hr; [auto|right].
        apply clean_cons in C as (Cg & C). inversion S' as [|? ? Sg S'']; subst.
        assert (Fg : In (first_of g) g) by now apply first_in.
        assert (Fx : first_of g <> x) by (intros E; apply (Nx g); [now left|now rewrite <- E]).
        assert (E : npl ((g :: J) ++ R) true r = npl (J ++ R) true 0).
        { cbn [app npl]. rewrite (proj2 (Nat.eqb_neq _ _) Fx), (Cg _ Fg Fx). rewrite andb_false_r.
          rewrite (proj2 (Nat.eqb_neq _ _) Hr). now destruct (2 <? length g). }
        rewrite E. destruct (IHJ C S'' (fun g' Hg => Nx g' (or_intror Hg)) 0) as [->|E']; auto. }
      destruct (Cl 1) as [->|E]; [lia| |].
      * left. exists []. split; reflexivity.
      * right. exists [], J. split; [reflexivity|exact E].
    + rewrite (Cg y); [|now left|auto]. cbn [Nat.eqb andb negb].
      destruct IH as [E|[E|[(A & -> & E)|(A & B & -> & E)]]]; auto.
      * right; right; left. exists ([y] :: A). auto.
      * right; right; right. exists ([y] :: A), B. auto.
  - destruct (second_in _ Hg) as (Hs & Hd & Hf). cbn [app npl]. rewrite Hg. destruct (Nat.eqb_spec (first_of g) x) as [E|Ny].
    + left. apply Cg; auto. rewrite <- E. auto.
    + rewrite (Cg _ Hf Ny). cbn [Nat.eqb andb negb].
      destruct IH as [E|[E|[(A & -> & E)|(A & B & -> & E)]]]; auto.
      * right; right; left. exists (g :: A). auto.
      * right; right; right. exists (g :: A), B. auto.
Qed.
Lemma npl_true R : clean R -> Forall shaped R -> (forall g, In g R -> ~ In x g) -> forall rs, npl R true rs = true.
Proof.
  intros C S N. induction R as [|g R IH]; intros rs; [reflexivity|].
  apply clean_cons in C as (Cg & C). inversion S as [|? ? Sg S']; subst.
  assert (Fg : In (first_of g) g) by now apply first_in.
  assert (Fx : first_of g <> x) by (intros E; apply (N g); [now left|now rewrite <- E]).
  cbn [npl]. rewrite (proj2 (Nat.eqb_neq _ _) Fx), (Cg _ Fg Fx), andb_false_r.
  destruct (2 <? length g), (rs =? 2); auto; apply IH; auto; intros g' Hg; apply N; now right.
Qed.
Lemma npl_skip J R : clean J -> Forall shaped J -> (forall g, In g J -> ~ In x g) -> npl (J ++ R) false 0 = npl R false 0.
Proof.
  intros C S N. induction J as [|g J IH]; [reflexivity|].
  apply clean_cons in C as (Cg & C). inversion S as [|? ? Sg S']; subst.
  assert (Fg : In (first_of g) g) by now apply first_in.
  assert (Fx : first_of g <> x) by (intros E; apply (N g); [now left|now rewrite <- E]).
  cbn [app npl]. rewrite (proj2 (Nat.eqb_neq _ _) Fx), (Cg _ Fg Fx). cbn [Nat.eqb andb].
  destruct (2 <? length g); apply IH; auto; intros g' Hg; apply N; now right.
Qed.

(** the elements equivalent to [x] are together with it *)
Lemma npl_together J1 m J2 : NoDup m -> In x m -> (forall y, In y m -> p y = true) -> clean J1 -> clean J2 ->
  Forall shaped J1 -> Forall shaped J2 -> (forall g, In g J1 -> ~ In x g) -> (forall g, In g J2 -> ~ In x g) ->
  npl (J1 ++ split m ++ J2) false 0 = true.
Proof.
  intros Nm X P C1 C2 S1 S2 N1 N2. rewrite npl_skip by auto.
  destruct (split_cases m) as [(-> & _)|[(y & -> & ->)|[(f & l & -> & ->)|(L & ->)]]]; [easy| | |]; cbn [app].
  - destruct X as [->|[]]. cbn [npl length Nat.ltb Nat.leb first_of List.hd]. rewrite Nat.eqb_refl. cbn. now apply npl_true.
  - cbn [npl length Nat.ltb Nat.leb first_of List.hd].
    destruct X as [->|[->|[]]].
    + rewrite Nat.eqb_refl. cbn [Nat.eqb]. assert (Nl : l <> x) by (intros ->; inversion Nm as [|? ? Y _]; subst; apply Y; now left).
      rewrite (proj2 (Nat.eqb_neq _ _) Nl), (P l) by (cbn; auto). cbn [Nat.eqb andb negb]. now apply npl_true.
    + assert (Nl : f <> x) by (intros ->; inversion Nm as [|? ? Y _]; subst; apply Y; now left).
      rewrite (proj2 (Nat.eqb_neq _ _) Nl), (P f) by (cbn; auto). cbn [Nat.eqb andb negb]. now rewrite Nat.eqb_refl.
  - cbn [npl]. assert (Hg : (2 <? length m) = true) by (apply Nat.ltb_lt; lia). rewrite Hg.
    destruct (second_in _ Hg) as (Hs & Hd & Hf). rewrite (P _ Hf), (P _ Hs).
    destruct (first_of m =? x); auto. unfold has. apply existsb_exists. exists x. split; auto. apply Nat.eqb_refl.
Qed.

Lemma upl_true J : (exists A B, J = A ++ [x] :: B /\ (forall g, In g (A ++ B) -> p (first_of g) = false /\ first_of g <> x)) -> forall f, upl J f = true.
Proof.
  intros (A & B & -> & H). induction A as [|g A IH]; intros f; cbn [app upl first_of List.hd].
  - rewrite Nat.eqb_refl. cbn [app] in H. clear f. induction B as [|g B IH]; [reflexivity|]. cbn [upl].
    destruct (H g) as (P & N); [now left|]. rewrite (proj2 (Nat.eqb_neq _ _) N), P. apply IH. intros g' Hg. apply H. now right.
  - destruct (H g) as (P & N); [now left|]. rewrite (proj2 (Nat.eqb_neq _ _) N), P. apply IH. intros g' Hg. apply H. now right.
Qed.
Lemma upl_inv J f : Forall (fun g => length g = 1) J -> upl J f = true ->
  (forall g, In g J -> first_of g <> x -> p (first_of g) = false) /\ (f = true \/ In [x] J).
Proof.
  intros S. revert f. induction S as [|g J Sg S IH]; intros f H; [split; [easy|auto]|]. cbn [upl] in H.
  destruct (Nat.eqb_spec (first_of g) x) as [E|N].
  - destruct (IH _ H) as (H1 & _). split.
    + intros g' [<-|Hg]; [easy|auto].
    + right. left. destruct g as [|y [|]]; cbn in Sg; try lia. cbn in E. congruence.
  - destruct (p (first_of g)) eqn:Pg; [easy|]. destruct (IH _ H) as (H1 & H2). split.
    + intros g' [<-|Hg]; auto.
    + destruct H2; auto. right. now right.
Qed.
End Pure.

(** ** Decompositions *)
Definition brun (i : nat) (I : list item) : list (list node) := map snd (filter (fun it => fst it =? i) I).
Lemma brun_app i I J : brun i (I ++ J) = brun i I ++ brun i J.
Proof. unfold brun. now rewrite filter_app, map_app. Qed.
Lemma brun_resplit i g : brun i (resplit i g) = split g.
Proof.
  unfold brun, resplit. induction (split g) as [|s l IH]; [reflexivity|]. cbn. rewrite Nat.eqb_refl. cbn. now rewrite IH.
Qed.
Lemma brun_in i I g : In g (brun i I) <-> In (i, g) I.
Proof.
  unfold brun. rewrite in_map_iff. split.
  - intros ((j, g') & <- & H). apply filter_In in H as (H & E). cbn in *. apply Nat.eqb_eq in E. congruence.
  - intros H. exists (i, g). split; auto. apply filter_In. split; auto. apply Nat.eqb_refl.
Qed.
Lemma brun_none i I : ~ In i (map fst I) -> brun i I = [].
Proof.
  intros N. unfold brun. induction I as [|(j, g) I IH]; [reflexivity|]. cbn [filter fst]. cbn [map fst In] in N.
  rewrite (proj2 (Nat.eqb_neq j i)) by tauto. apply IH. tauto.
Qed.
Lemma leading i (I : list item) : exists J Y, I = map (pair i) J ++ Y /\ match Y with [] => True | (j, _) :: _ => j <> i end.
Proof.
  induction I as [|(j, g) I (J & Y & -> & H)]; [exists [], []; auto|].
  destruct (Nat.eq_dec j i) as [->|N]; [exists (g :: J), Y; auto|]. exists [], ((j, g) :: map (pair i) J ++ Y). auto.
Qed.
Lemma brun_pair i J : brun i (map (pair i) J) = J.
Proof. unfold brun. induction J as [|g J IH]; [reflexivity|]. cbn. rewrite Nat.eqb_refl. cbn. now rewrite IH. Qed.
Lemma bucket_split n i I : contig (map fst I ++ [n]) ->
  exists X Y, I = X ++ map (pair i) (brun i I) ++ Y /\ ~ In i (map fst X) /\ ~ In i (map fst Y).
Proof.
  intros C. destruct (bfirst_split i I) as [(X & g & I2 & E & N & _)|(N & _)].
  - destruct (leading i I2) as (J & Y & E2 & H). subst I2 I.
    assert (NY : ~ In i (map fst Y)).
    { destruct Y as [|(j, g') Y]; [easy|]. intros [H'|H']; [easy|]. cbn [fst] in H'. apply H.
      rewrite map_app in C. cbn [map fst] in C. rewrite map_app in C. cbn [map fst] in C.
      apply (C (map fst X ++ i :: map fst (map (pair i) J)) j (map fst Y ++ [n]) i).
      - rewrite <- !app_assoc. cbn [app]. rewrite <- !app_assoc. reflexivity.
      - apply in_or_app. right. now left.
      - apply in_or_app. auto. }
    exists X, Y. rewrite brun_app. rewrite (brun_none _ _ N).
    change ((i, g) :: map (pair i) J ++ Y) with (map (pair i) (g :: J) ++ Y). rewrite brun_app, brun_pair, (brun_none _ _ NY).
    cbn [app]. rewrite app_nil_r. auto.
  - exists I, []. rewrite (brun_none _ _ N). cbn [map app]. rewrite app_nil_r. auto.
Qed.

(** cutting a list of segments *)
Lemma cut_flat G : forall I1 I2, flat G = I1 ++ I2 -> exists GA GB, I1 = flat GA /\ I2 = flat GB /\
  (G = GA ++ GB \/ exists Ga i f l Gb, G = Ga ++ (i, [f; l]) :: Gb /\ GA = Ga ++ [(i, [f])] /\ GB = (i, [l]) :: Gb).
Proof.
  induction G as [|(i, g) G IH]; intros I1 I2 E.
  - symmetry in E. apply app_eq_nil in E as (-> & ->). exists [], []. auto.
  - rewrite flat_cons in E. cbn [fst snd] in E. symmetry in E. apply app_eq_app in E as (l & [(E1 & E2)|(E1 & E2)]).
    + destruct (IH l I2 E2) as (GA & GB & -> & -> & H). exists ((i, g) :: GA), GB. repeat split; auto.
      destruct H as [->|(Ga & j & f & l' & Gb & -> & -> & ->)]; [auto|right]. exists ((i, g) :: Ga), j, f, l', Gb. auto.
    + unfold resplit in E1.
      destruct (split_cases g) as [(-> & Es)|[(y & -> & Es)|[(f & l' & -> & Es)|(L & Es)]]]; rewrite Es in E1; cbn [map] in E1.
      * symmetry in E1. apply app_eq_nil in E1 as (-> & ->). exists [], ((i, []) :: G). repeat split; auto.
      * destruct I1 as [|c I1]; cbn [app] in E1.
        -- exists [], ((i, [y]) :: G). repeat split; auto. rewrite E2, <- E1. reflexivity.
        -- injection E1 as <- E1. symmetry in E1. apply app_eq_nil in E1 as (-> & ->).
           exists [(i, [y])], G. repeat split; auto.
      * destruct I1 as [|c I1]; cbn [app] in E1.
        -- exists [], ((i, [f; l']) :: G). repeat split; auto. rewrite E2, <- E1. reflexivity.
        -- injection E1 as <- E1. destruct I1 as [|c I1]; cbn [app] in E1.
           ++ exists [(i, [f])], ((i, [l']) :: G). repeat split; auto.
              ** rewrite E2, <- E1. reflexivity.
              ** right. exists [], i, f, l', G. auto.
           ++ injection E1 as <- E1. symmetry in E1. apply app_eq_nil in E1 as (-> & ->).
              exists [(i, [f; l'])], G. repeat split; auto.
      * destruct I1 as [|c I1]; cbn [app] in E1.
        -- exists [], ((i, g) :: G). repeat split; auto. rewrite E2, <- E1, flat_cons. unfold resplit. cbn [fst snd]. now rewrite Es.
        -- injection E1 as <- E1. symmetry in E1. apply app_eq_nil in E1 as (-> & ->).
           exists [(i, g)], G. repeat split; auto. unfold flat. cbn. rewrite app_nil_r. unfold resplit. now rewrite Es.
Qed.

Section Together.
Context {V K : Type}.
Variable key : V -> K.
Variable eq : K -> K -> bool.
Variable hash : K -> nat.
Variable uniq : bool.
Hypothesis HO : heq_ok eq hash.
Variables val0 val : node -> V.
Variable x : node.
Hypothesis Same : forall y, y <> x -> val0 y = val y.
Variable n : nat.
Variables I G : list item.
Hypothesis CL : classes key eq hash uniq val0 n I G.
Hypothesis ND : NoDup (elems I).
Hypothesis X : In x (elems I).
Hypothesis CT : contig (map fst I ++ [n]).
Notation kf y := (key (val y)).
Notation p := (fun y => eq (kf x) (kf y)).
Notation i := (position (hash (kf x)) n).

Definition together : Prop := exists I1 m I2, I = I1 ++ resplit i m ++ I2 /\ In x m /\
  (forall y, In y m -> p y = true) /\ (forall y, In y (elems (I1 ++ I2)) -> p y = false) /\ (uniq = true -> length m = 1).

Lemma hok_together : hok key eq hash uniq val (n, I) -> together.
Proof.
  intros (G' & E & C & A). cbn [fst snd] in *. rewrite E, elems_flat in X. apply in_elems in X as (c & Hc & Xc).
  apply in_split in Hc as (G1 & G2 & ->). destruct c as (j, m). cbn [snd] in Xc.
  rewrite Forall_forall in C. assert (Cm : class key eq hash uniq val n (j, m)) by (apply C; rewrite in_app_iff; cbn; auto).
  destruct Cm as (Nm & Bm & Qm & Um). cbn [fst snd] in *.
  apply fop_mid in A; [|intros; eapply apart_sym; eauto]. destruct A as (A & _).
  exists (flat G1), m, (flat G2). rewrite (Bm x Xc). rewrite E, flat_app, flat_cons. repeat split; auto.
  intros y Y. rewrite <- flat_app, elems_flat in Y. apply in_elems in Y as (d & D & Y). apply (A d D); auto.
Qed.

Lemma class_sub v c d : class key eq hash uniq v n d -> fst c = fst d -> incl (snd c) (snd d) -> snd c <> [] ->
  length (snd c) <= length (snd d) -> class key eq hash uniq v n c.
Proof.
  intros (A1 & A2 & A3 & A4) E S N Le. split; [|split; [|split]]; auto.
  - intros y Y. rewrite E. auto.
  - intros U. specialize (A4 U). destruct (snd c); [easy|]. cbn in *. lia.
Qed.
Lemma cut_classes I1 I2 : I = I1 ++ I2 -> exists GA GB, I1 = flat GA /\ I2 = flat GB /\
  Forall (class key eq hash uniq val0 n) (GA ++ GB) /\ ForallOrdPairs (apart key eq val0) GA /\
  ForallOrdPairs (apart key eq val0) GB /\
  (forall c d, In c GA -> In d GB -> apart key eq val0 c d \/ exists j l r, I2 = (j, [l]) :: r /\ d = (j, [l])).
Proof.
  intros E. destruct CL as (EG & C & A). rewrite EG in E. destruct (cut_flat _ _ _ E) as (GA & GB & -> & -> & H).
  exists GA, GB. repeat split; auto; destruct H as [->|(Ga & j & f & l & Gb & -> & -> & ->)]; auto.
  - rewrite <- app_assoc. cbn [app]. apply Forall_app in C as (C1 & C2). inversion C2 as [|? ? Cc C3]; subst.
    apply Forall_app. split; auto. assert (Pl : incl [f] [f; l] /\ incl [l] [f; l]) by (split; intros y [<-|[]]; cbn; auto).
    constructor; [eapply class_sub; [exact Cc|..]; cbn; try easy; try lia; apply Pl|].
    constructor; [eapply class_sub; [exact Cc|..]; cbn; try easy; try lia; apply Pl|]. auto.
  - apply fop_app in A as (A1 & A2 & A3). auto.
  - apply fop_app in A as (A1 & A2 & A3). apply fop_app. split; [|split]; auto.
    + constructor; constructor.
    + intros c d Hc [<-|[]]. intros y z Y [<-|[]]. apply (A3 c (j, [f; l])); cbn; auto.
  - apply fop_app in A as (A1 & A2 & A3). auto.
  - apply fop_app in A as (A1 & A2 & A3). inversion A2 as [|? ? A4 A5]; subst. constructor; auto.
    eapply Forall_impl; [|exact A4]. intros c Hc y z [<-|[]] Z. apply Hc; cbn; auto.
  - intros c d Hc Hd. left. apply fop_app in A as (A1 & A2 & A3). auto.
  - intros c d Hc Hd. apply fop_app in A as (A1 & A2 & A3). inversion A2 as [|? ? A4 A5]; subst. rewrite Forall_forall in A4.
    apply in_app_or in Hc as [Hc|[<-|[]]]; destruct Hd as [<-|Hd].
    + left. intros y z Y [<-|[]]. apply (A3 c (j, [f; l])); cbn; auto.
    + left. apply A3; cbn; auto.
    + right. exists j, l, (flat Gb). auto.
    + left. intros y z [<-|[]] Z. apply (A4 d Hd); cbn; auto.
Qed.

Lemma together_hok : together -> hok key eq hash uniq val (n, I).
Proof.
  intros (I1 & m & I2 & E & Xm & Pm & Po & Um).
  assert (Nm : m <> []) by (intros ->; easy).
  assert (ND' := ND). rewrite E, !elems_app, elems_resplit in ND'.
  assert (N1 : ~ In x (elems I1)) by (intros H; eapply (nd_neq _ _ ND' H); [apply in_or_app; left; exact Xm|reflexivity]).
  assert (N2 : ~ In x (elems I2)).
  { apply NoDup_app_iff in ND' as (_ & ND' & _). intros H. eapply (nd_neq _ _ ND' Xm H). reflexivity. }
  destruct (@cut_classes I1 (resplit i m ++ I2) E) as (GA & GB' & E1 & E3 & C1 & A1 & _ & H1).
  assert (E' : I = (I1 ++ resplit i m) ++ I2) by now rewrite <- app_assoc.
  destruct (@cut_classes (I1 ++ resplit i m) I2 E') as (GA' & GB & _ & E2 & C2 & _ & A2 & _).
  assert (NA : forall c y, In c GA -> In y (snd c) -> y <> x).
  { intros c y Hc Hy ->. apply N1. rewrite E1, elems_flat. apply in_elems. eauto. }
  assert (NB : forall c y, In c GB -> In y (snd c) -> y <> x).
  { intros c y Hc Hy ->. apply N2. rewrite E2, elems_flat. apply in_elems. eauto. }
  assert (Sep : forall y z, In y (elems I1) -> In z (elems I2) -> eq (kf y) (kf z) = false).
  { intros y z Y Z. assert (Y' := Y). rewrite E1, elems_flat in Y. apply in_elems in Y as (c & Hc & Y).
    assert (Z' : In z (elems (resplit i m ++ I2))) by (rewrite elems_app; apply in_or_app; auto).
    rewrite E3, elems_flat in Z'. apply in_elems in Z' as (d & Hd & Zd).
    assert (Y0 : y <> x) by (intros ->; auto). assert (Z0 : z <> x) by (intros ->; auto).
    destruct (H1 c d Hc Hd) as [H|(j & l & r & Er & ->)]; [specialize (H y z Y Zd); now rewrite (Same Y0), (Same Z0) in H|].
    exfalso. destruct Zd as [->|[]]. apply NoDup_app_iff in ND' as (_ & ND' & _).
    assert (Zm : In z m); [|eapply (nd_neq _ _ ND' Zm Z); reflexivity].
    rewrite <- (elems_resplit i m). destruct (resplit i m) as [|h r'] eqn:Eh; [now apply resplit_ne in Eh|].
    cbn [app] in Er. injection Er as -> _. rewrite elems_cons. now left. }
  apply Forall_app in C1 as (C1 & _). apply Forall_app in C2 as (_ & C2). rewrite Forall_forall in C1, C2.
  assert (Ap : forall GG, ForallOrdPairs (apart key eq val0) GG -> (forall c y, In c GG -> In y (snd c) -> y <> x) ->
    ForallOrdPairs (apart key eq val) GG).
  { intros GG H. induction H as [|c l Hc H IH]; intros N; constructor.
    - rewrite Forall_forall in Hc. apply Forall_forall. intros d Hd y z Y Z. rewrite <- !Same; [apply (Hc d Hd); auto|..];
        eapply N; eauto; cbn; auto.
    - apply IH. intros d y Hd. apply N. now right. }
  exists (GA ++ (i, m) :: GB). cbn [fst snd]. split; [|split].
  - now rewrite flat_app, flat_cons, <- E1, <- E2.
  - apply Forall_app. split; [|constructor].
    + apply Forall_forall. intros c Hc. eapply class_ext; [|exact (C1 c Hc)]. intros y Y. apply Same. eauto.
    + split; [exact Nm|split; [|split]]; cbn [fst snd]; auto.
      * intros y Y. f_equal. apply (q_hash HO), (q_sym HO). auto.
      * intros y z Y Z. eapply (q_trans HO); [apply (q_sym HO)|]; apply Pm; auto.
    + apply Forall_forall. intros c Hc. eapply class_ext; [|exact (C2 c Hc)]. intros y Y. apply Same. eauto.
  - apply fop_app. split; [|split].
    + auto.
    + constructor; [|auto]. apply Forall_forall. intros d Hd y z Y Z. cbn [snd] in Y.
      rewrite (q_left HO _ _ (kf z) (q_sym HO _ _ (Pm y Y))). apply Po. rewrite elems_app. apply in_or_app. right. rewrite E2, elems_flat. apply in_elems. eauto.
    + intros c d Hc [<-|Hd] y z Y Z.
      * cbn [snd] in Z. apply (q_symf HO). rewrite (q_left HO _ _ (kf y) (q_sym HO _ _ (Pm z Z))). apply Po. rewrite elems_app. apply in_or_app. left. rewrite E1, elems_flat. apply in_elems. eauto.
      * apply Sep; [rewrite E1|rewrite E2]; rewrite elems_flat; apply in_elems; eauto.
Qed.

Lemma flat_shaped G' : Forall (fun it : item => shaped (snd it)) (flat G').
Proof.
  induction G' as [|c l IH]; [constructor|]. rewrite flat_cons. apply Forall_app. split; auto. apply Forall_forall. intros it. apply resplit_shaped.
Qed.
Lemma brun_shaped : Forall shaped (brun i I).
Proof.
  destruct CL as (-> & C & _). apply Forall_forall. intros g H. apply brun_in in H.
  assert (F := @flat_shaped G). rewrite Forall_forall in F. exact (F _ H).
Qed.
Lemma elems_mid I1 (it : item) I2 y : In y (elems (I1 ++ it :: I2)) <-> In y (snd it) \/ In y (elems (I1 ++ I2)).
Proof. destruct it. rewrite !elems_app, elems_cons, !in_app_iff. cbn [snd]. tauto. Qed.
Lemma bucket_of y : In y (elems I) -> y <> x -> p y = true -> exists g, In (i, g) I /\ In y g.
Proof.
  intros Y N P. destruct CL as (E & C & _). rewrite E, elems_flat in Y. apply in_elems in Y as ((j, g) & Hc & Y).
  rewrite Forall_forall in C. destruct (C _ Hc) as (_ & B & _). cbn [fst snd] in *.
  assert (Ej : j = i). { rewrite <- (B y Y), (Same N). f_equal. symmetry. now apply (q_hash HO). }
  subst j. apply in_split in Hc as (G1 & G2 & ->).
  rewrite <- (elems_resplit i g) in Y. apply in_elems in Y as (it & Hi & Y). exists (snd it). split; auto.
  assert (fst it = i) by (eapply resplit_fst; eauto). destruct it as (j, g'). cbn in *. subst j.
  rewrite E, flat_app, flat_cons. apply in_or_app. right. apply in_or_app. now left.
Qed.
Lemma has_clean : (forall y, In y (elems I) -> y <> x -> p y = false) -> In (i, [x]) I -> together.
Proof.
  intros H Hx. apply in_split in Hx as (I1 & I2 & E). exists I1, [x], I2. split; [exact E|]. split; [now left|].
  split; [intros y [<-|[]]; apply (q_refl HO)|]. split; auto. intros y Y. apply H.
  - rewrite E. apply elems_mid. auto.
  - intros ->. rewrite E, elems_app, elems_cons in ND. cbn [snd app] in ND. apply NoDup_remove in ND as (_ & ND).
    apply ND. now rewrite elems_app in Y.
Qed.
Lemma brun_nd : NoDup (concat (brun i I)) /\ Forall (@NoDup node) (brun i I).
Proof.
  destruct (@bucket_split n i I CT) as (X1 & Y1 & E & _). assert (N := ND). rewrite E, !elems_app in N.
  apply NoDup_app_iff in N as (_ & N & _). apply NoDup_app_iff in N as (N & _ & _).
  assert (E' : elems (map (pair i) (brun i I)) = concat (brun i I)).
  { generalize (brun i I). intros l. induction l as [|g l IH]; [reflexivity|]. cbn [map concat]. now rewrite elems_cons, IH. }
  rewrite E' in N. split; auto. clear - N. induction (brun i I) as [|g l IH]; [constructor|]. cbn in N.
  apply NoDup_app_iff in N as (N1 & N2 & _). constructor; auto.
Qed.

(** adjacent single items of the bucket *)
Lemma has_pair a b A B : brun i I = A ++ [a] :: [b] :: B -> uniq = false -> In x [a; b] ->
  (forall y, In y [a; b] -> p y = true) -> (forall y, In y (elems I) -> ~ In y [a; b] -> p y = false) -> together.
Proof.
  intros E U Hx P N. destruct (@bucket_split n i I CT) as (X1 & Y1 & E1 & _). rewrite E, map_app in E1. cbn [map] in E1.
  exists (X1 ++ map (pair i) A), [a; b], (map (pair i) B ++ Y1).
  assert (E2 : I = (X1 ++ map (pair i) A) ++ resplit i [a; b] ++ map (pair i) B ++ Y1).
  { rewrite E1. rewrite <- !app_assoc. cbn [app]. reflexivity. }
  split; [exact E2|]. split; auto. split; auto. split; [|rewrite U; easy].
  intros y Y. apply N.
  - rewrite E2, !elems_app, !in_app_iff. rewrite !elems_app, !in_app_iff in Y. tauto.
  - intros H. assert (N' := ND). rewrite E2, (elems_app (X1 ++ _)), (elems_app (resplit i _)), elems_resplit in N'.
    rewrite (elems_app (X1 ++ _)), in_app_iff in Y. destruct Y as [Y|Y].
    + eapply (nd_neq _ _ N' Y); [apply in_or_app; left; exact H|reflexivity].
    + apply NoDup_app_iff in N' as (_ & N' & _). eapply (nd_neq _ _ N' H Y). reflexivity.
Qed.

Lemma together_npl : together -> npl p x (brun i I) false 0 = true.
Proof.
  intros (I1 & m & I2 & E & Xm & Pm & Po & Um). rewrite E, !brun_app, brun_resplit.
  assert (S := brun_shaped). rewrite E, !brun_app in S. apply Forall_app in S as (S1 & S2). apply Forall_app in S2 as (_ & S2).
  assert (N := ND). rewrite E, !elems_app, elems_resplit in N.
  assert (Q : forall I' g y, In g (brun i I') -> In y g -> In y (elems I')).
  { intros I' g y Hg Hy. apply brun_in in Hg. apply in_elems. exists (i, g). auto. }
  apply npl_together; auto.
  - apply NoDup_app_iff in N as (_ & N & _). now apply NoDup_app_iff in N.
  - intros g y Hg Hy _. apply Po. rewrite elems_app. apply in_or_app. left. eauto.
  - intros g y Hg Hy _. apply Po. rewrite elems_app. apply in_or_app. right. eauto.
  - intros g Hg Hy. eapply (nd_neq _ _ N); [eapply Q; eauto|apply in_or_app; left; exact Xm|reflexivity].
  - intros g Hg Hy. apply NoDup_app_iff in N as (_ & N & _). eapply (nd_neq _ _ N Xm); [eapply Q; eauto|reflexivity].
Qed.

Lemma npl_inv : uniq = false -> npl p x (brun i I) false 0 = true -> together.
Proof.
  intros U H. destruct brun_nd as (N1 & N2). assert (S := brun_shaped).
  set (q := fun y => negb (y =? x) && p y). destruct (existsb q (elems I)) eqn:Eq.
  - apply existsb_exists in Eq as (c & Hc & Hq). unfold q in Hq. apply andb_prop in Hq as (Nc & Pc).
    apply negb_true_iff, Nat.eqb_neq in Nc. destruct CL as (EG & C & Ap).
    assert (Hc' := Hc). rewrite EG, elems_flat in Hc'. apply in_elems in Hc' as ((j, gc) & Hg & Hc').
    cbn [snd] in Hc'. apply in_split in Hg as (G1 & G2 & EGG). subst G.
    apply fop_mid in Ap; [|intros; eapply apart_sym; eauto]. destruct Ap as (Ap & _).
    rewrite Forall_forall in C. assert (Cc : class key eq hash uniq val0 n (j, gc)) by (apply C, in_or_app; right; now left).
    destruct Cc as (Nn & Bc & Qc & Uc). cbn [fst snd] in *.
    assert (Ej : j = i). { rewrite <- (Bc c Hc'), (Same Nc). f_equal. symmetry. now apply (q_hash HO). }
    subst j.
    assert (In1 : forall y, In y gc -> y <> x -> p y = true).
    { intros y Y Ny. eapply (q_trans HO); [exact Pc|]. rewrite <- !Same; auto. }
    assert (Out : forall y, In y (elems I) -> ~ In y gc -> y <> x -> p y = false).
    { intros y Y Ng Ny. rewrite EG, elems_flat in Y. apply in_elems in Y as (d & Hd & Y).
      assert (Hd' : In d (G1 ++ G2)).
      { apply in_app_or in Hd as [Hd|[<-|Hd]]; [apply in_or_app; auto|easy|apply in_or_app; auto]. }
      destruct (p y) eqn:Py; auto. specialize (Ap d Hd' c y Hc' Y). rewrite !Same in Ap by auto.
      rewrite <- Ap. symmetry. eapply (q_trans HO); [apply (q_sym HO); exact Pc|exact Py]. }
    destruct (in_dec Nat.eq_dec x gc) as [Xg|Xg].
    + exists (flat G1), gc, (flat G2). split; [now rewrite EG, flat_app, flat_cons|]. split; auto.
      split; [intros y Y; destruct (Nat.eq_dec y x) as [->|Ny]; [apply (q_refl HO)|auto]|]. split; [|rewrite U; easy].
      intros y Y. assert (N := ND). rewrite EG, flat_app, flat_cons, !elems_app, elems_resplit in N. cbn [fst snd] in N.
      assert (Ng : ~ In y gc).
      { intros Z. rewrite elems_app, in_app_iff in Y. destruct Y as [Y|Y].
        - eapply (nd_neq _ _ N Y); [apply in_or_app; left; exact Z|reflexivity].
        - apply NoDup_app_iff in N as (_ & N & _). eapply (nd_neq _ _ N Z Y). reflexivity. }
      apply Out; auto; [|intros ->; auto].
      rewrite EG, flat_app, flat_cons, !elems_app, !in_app_iff. rewrite elems_app, in_app_iff in Y. tauto.
    + assert (Eb : brun i I = brun i (flat G1) ++ split gc ++ brun i (flat G2)).
      { rewrite EG, flat_app, flat_cons, !brun_app. cbn [fst snd]. now rewrite brun_resplit. }
      set (A := brun i (flat G1)) in *. set (B := brun i (flat G2)) in *.
      rewrite Eb in S, N1, N2, H.
      assert (N := ND). rewrite EG, flat_app, flat_cons, !elems_app, elems_resplit in N. cbn [fst snd] in N.
      assert (CA : clean p x A).
      { intros g y Hg Hy Ny. apply brun_in in Hg. assert (Y : In y (elems (flat G1))) by (apply in_elems; exists (i, g); auto).
        apply Out; auto.
        - rewrite EG, flat_app, elems_app. apply in_or_app. auto.
        - intros Z. eapply (nd_neq _ _ N Y); [apply in_or_app; left; exact Z|reflexivity]. }
      assert (CB : clean p x B).
      { intros g y Hg Hy Ny. apply brun_in in Hg. assert (Y : In y (elems (flat G2))) by (apply in_elems; exists (i, g); auto).
        apply Out; auto.
        - rewrite EG, flat_app, flat_cons, !elems_app, !in_app_iff. auto.
        - intros Z. apply NoDup_app_iff in N as (_ & N & _). eapply (nd_neq _ _ N Z Y). reflexivity. }
      apply Forall_app in S as (SA & S). apply Forall_app in S as (_ & SB). apply Forall_app in N2 as (NA & N2).
      apply Forall_app in N2 as (_ & NB).
      assert (N1' : NoDup (concat A)) by (rewrite concat_app in N1; now apply NoDup_app_iff in N1).
      assert (Nf : forall y, In y gc -> (y =? x) = false) by (intros y Y; apply Nat.eqb_neq; intros ->; auto).
      destruct (npl_clean (p := p) (x := x) (split gc ++ B) CA SA NA N1') as [E|[E|[(A' & EA & E)|(A1 & A2 & EA & E)]]]; rewrite E in H.
      * easy.
      * destruct (split_cases gc) as [(-> & _)|[(y & -> & Es)|[(f & l & -> & Es)|(L & Es)]]]; [easy| | |]; rewrite Es in *; cbn [app] in H.
        -- destruct Hc' as [->|[]]. cbn [npl length Nat.ltb Nat.leb first_of List.hd] in H. rewrite (Nf c), Pc in H by now left.
           cbn [Nat.eqb andb negb] in H. destruct B as [|g B']; [easy|]. inversion SB as [|? ? Sg _]; subst. inversion NB as [|? ? Ng _]; subst.
           apply clean_cons in CB as (Cg & _). cbn [npl] in H. destruct (single_or Sg) as [(y & ->)|Hg].
           ++ cbn [length Nat.ltb Nat.leb first_of List.hd] in H. destruct (Nat.eqb_spec y x) as [->|Ny].
              ** apply has_pair with (a := c) (b := x) (A := A) (B := B'); auto.
                 --- cbn; auto.
                 --- intros z [<-|[<-|[]]]; auto. apply (q_refl HO).
                 --- intros z Z Nz. apply Out; auto; [intros [->|[]]; apply Nz; cbn; auto|intros ->; apply Nz; cbn; auto].
              ** rewrite (Cg y) in H by (cbn; auto). easy.
           ++ rewrite Hg in H. destruct (second_in _ Hg) as (Hs & Hd & Hf). destruct (Nat.eqb_spec (first_of g) x) as [Ex|Nx].
              ** rewrite (Cg (second g)) in H; [easy|auto|]. rewrite <- Ex. auto.
              ** rewrite (Cg (first_of g)) in H by auto. easy.
        -- cbn [npl length Nat.ltb Nat.leb first_of List.hd] in H. rewrite (Nf f), (Nf l), (In1 f), (In1 l) in H; cbn; auto; try easy; intros ->; cbn in *; tauto.
        -- assert (Hg : (2 <? length gc) = true) by (apply Nat.ltb_lt; lia). cbn [npl] in H. rewrite Hg in H.
           destruct (second_in _ Hg) as (Hs & Hd & Hf). rewrite (Nf _ Hf), (In1 _ Hf) in H by (intros E1; rewrite E1 in Hf; auto).
           unfold has in H. apply existsb_exists in H as (z & Z & Ez). apply Nat.eqb_eq in Ez. subst z. easy.
      * destruct (split_cases gc) as [(-> & _)|[(y & -> & Es)|[(f & l & -> & Es)|(L & Es)]]]; [easy| | |]; rewrite Es in *; cbn [app] in H.
        -- destruct Hc' as [->|[]]. apply has_pair with (a := x) (b := c) (A := A') (B := B); auto.
           ++ rewrite Eb, EA, <- app_assoc. reflexivity.
           ++ now left.
           ++ intros z [<-|[<-|[]]]; auto. apply (q_refl HO).
           ++ intros z Z Nz. apply Out; auto; [intros [->|[]]; apply Nz; cbn; auto|intros ->; apply Nz; cbn; auto].
        -- cbn [npl length Nat.ltb Nat.leb first_of List.hd] in H. rewrite (Nf f), (Nf l), (In1 f), (In1 l) in H; cbn; auto; try easy; intros ->; cbn in *; tauto.
        -- assert (Hg : (2 <? length gc) = true) by (apply Nat.ltb_lt; lia). cbn [npl] in H. rewrite Hg in H.
           destruct (second_in _ Hg) as (Hs & Hd & Hf). rewrite (Nf _ Hf), (In1 _ Hf) in H by (intros E1; rewrite E1 in Hf; auto). easy.
      * destruct (split_cases gc) as [(-> & _)|[(y & -> & Es)|[(f & l & -> & Es)|(L & Es)]]]; [easy| | |]; rewrite Es in *; cbn [app] in H.
        -- destruct Hc' as [->|[]]. cbn [npl length Nat.ltb Nat.leb first_of List.hd] in H. rewrite (Nf c), Pc in H by now left. easy.
        -- cbn [npl length Nat.ltb Nat.leb first_of List.hd] in H. rewrite (Nf f), (In1 f) in H; cbn; auto; try easy; intros ->; cbn in *; tauto.
        -- assert (Hg : (2 <? length gc) = true) by (apply Nat.ltb_lt; lia). cbn [npl] in H. rewrite Hg in H.
           destruct (second_in _ Hg) as (Hs & Hd & Hf). rewrite (Nf _ Hf), (In1 _ Hf) in H by (intros E1; rewrite E1 in Hf; auto). easy.
  - assert (Cl : forall y, In y (elems I) -> y <> x -> p y = false).
    { intros y Y Ny. destruct (p y) eqn:Py; auto. rewrite <- Eq. symmetry. apply existsb_exists. exists y. split; auto.
      unfold q. rewrite (proj2 (Nat.eqb_neq _ _) Ny), Py. reflexivity. }
    assert (CB : clean p x (brun i I)).
    { intros g y Hg Hy Ny. apply Cl; auto. apply brun_in in Hg. apply in_elems. exists (i, g). auto. }
    assert (Z : In [x] (brun i I)).
    { destruct (npl_clean (p := p) (x := x) [] CB S N2 N1) as [E|[E|[(A' & EA & E)|(A1 & A2 & EA & E)]]];
        rewrite app_nil_r in E; rewrite E in H; try easy; rewrite EA; apply in_or_app; right; now left. }
    apply has_clean; auto. now apply brun_in.
Qed.

Lemma single_items : uniq = true -> Forall (fun g => length g = 1) (brun i I).
Proof.
  intros U. apply Forall_forall. intros g Hg. apply brun_in in Hg. destruct CL as (E & C & _). rewrite E in Hg.
  unfold flat in Hg. apply in_flat_map in Hg as ((j, c) & Hc & Hg).
  rewrite Forall_forall in C. destruct (C _ Hc) as (_ & _ & _ & Uc). cbn [fst snd] in *. specialize (Uc U).
  destruct c as [|y [|]]; cbn in Uc; try lia. cbn in Hg. destruct Hg as [E'|[]]. now injection E' as _ <-.
Qed.
Lemma together_upl : uniq = true -> together -> upl p x (brun i I) false = true.
Proof.
  intros U (I1 & m & I2 & E & Xm & Pm & Po & Um). specialize (Um U).
  destruct m as [|y [|]]; cbn in Um; try lia. destruct Xm as [->|[]].
  assert (S := single_items U). rewrite E, !brun_app in S. apply Forall_app in S as (S1 & S2). apply Forall_app in S2 as (_ & S2).
  apply upl_true. exists (brun i I1), (brun i I2). split; [rewrite E, !brun_app, brun_resplit; reflexivity|].
  intros g Hg. assert (L : length g = 1).
  { apply in_app_or in Hg as [Hg|Hg]; [rewrite Forall_forall in S1; auto|rewrite Forall_forall in S2; auto]. }
  destruct g as [|y [|]]; cbn in L; try lia. cbn [first_of List.hd].
  assert (Y : In y (elems (I1 ++ I2))).
  { rewrite <- brun_app in Hg. apply brun_in in Hg. apply in_elems. exists (i, [y]). split; auto. now left. }
  split; [auto|]. intros ->. specialize (Pm x (or_introl eq_refl)). now rewrite (Po _ Y) in Pm.
Qed.
Lemma upl_together : uniq = true -> upl p x (brun i I) false = true -> together.
Proof.
  intros U H. destruct (upl_inv _ _ _ (single_items U) H) as (H1 & [H2|H2]); [easy|]. apply brun_in in H2.
  apply has_clean; auto. intros y Y Ny. destruct (p y) eqn:Py; auto. destruct (bucket_of Y Ny Py) as (g & Hg & Yg).
  assert (L : length g = 1). { assert (S := single_items U). rewrite Forall_forall in S. apply S. now apply brun_in. }
  destruct g as [|z [|]]; cbn in L; try lia. destruct Yg as [->|[]]. rewrite <- Py. apply brun_in in Hg. now apply (H1 _ Hg).
Qed.

(** what the loops compute *)
Definition placed_b : bool := if uniq then upl p x (brun i I) false else npl p x (brun i I) false 0.
Theorem placed_iff : placed_b = true <-> hok key eq hash uniq val (n, I).
Proof.
  unfold placed_b. split.
  - intros H. apply together_hok. destruct (bool_dec uniq true) as [U|U].
    + rewrite U in H. now apply upl_together.
    + apply not_true_is_false in U. rewrite U in H. now apply npl_inv.
  - intros H. apply hok_together in H. destruct (bool_dec uniq true) as [U|U].
    + rewrite U. now apply together_upl.
    + apply not_true_is_false in U. rewrite U. now apply together_npl.
Qed.
End Together.

(** ** The loops of the code *)
Lemma Rd_bind {A B} (m : HM A) (k : A -> HM B) r r' h : Rd m r h -> Rd (k r) r' h -> Rd (bind m k) r' h.
Proof. rewrite !Rd_eq. unfold bind. intros -> H. exact H. Qed.
Lemma Rd_bind_inv {A B} (m : HM A) (k : A -> HM B) r r' h : Rd m r h -> Rd (bind m k) r' h -> Rd (k r) r' h.
Proof. rewrite !Rd_eq. unfold bind. now intros ->. Qed.
Section Loops.
Variables V K : Type.
Variable throws : nat -> bool.
Variable pick : list node -> node.
Variable dv : V.
Variable key : V -> K.
Variable eq : K -> K -> bool.
Variable hash : K -> nat.
Variable uniq : bool.
Variable hd : node.
Variable L : Layer V.
Variable S : Spec V.
Variable rep : St L -> AV S -> Prop.
Variable shell : St L -> Prop.
Hypothesis O : OK throws pick dv hd L S rep shell.
Hypothesis HO : heq_ok eq hash.
Variable t : hst.
Variable s : St L.
Notation b := (bget L s).
Notation vl := (val dv b).
Variable I : list item.
Variable F : list cell.
Notation n := (bc t).
Notation a := (arr t).
Hypothesis Wf : wfi n I.
Hypothesis Hs : hs (hp t) (layout a n hd I ++ F).
Hypothesis UQ : uniq = true -> Forall (fun it => length (snd it) = 1) I.
Hypothesis LV : forall x, In x (elems I) -> live b x.
Hypothesis SZ : length (elems I) <= Datatypes.S (cget L s).
Notation kf y := (key (vl y)).
Notation Ro := (Ro throws t s).

Lemma second_lay I1 i g I2 : I = I1 ++ (i, g) :: I2 -> (2 <? length g) = true -> Rd (nxt (first_of g)) (PN (second g)) (hp t).
Proof.
  intros E Lg. apply Nat.ltb_lt in Lg. assert (W := Wf). assert (H := Hs). rewrite E in W, H.
  destruct (@first_cells a n hd _ _ _ _ _ _ H) as (v & C & H1 & P1).
  apply wfi_app in W as (W1 & W2). apply wfi_cons in W2 as ((Li & Sg & Ng) & W2).
  destruct (shaped_cases Sg) as [(x & ->)|(f & c & m & l & ->)]; [cbn in Lg; lia|].
  rewrite inner_grp in H1. eapply Rd_rd; [exact H1|]. cbn; auto.
Qed.
Lemma nd_I : NoDup (elems I).
Proof. assert (N := layout_nodup _ _ _ Wf Hs). apply NoDup_app_iff in N as (_ & N & _). now inversion N. Qed.
Lemma locally_out I1 i g I2 y : I = I1 ++ (i, g) :: I2 -> In y g -> y <> locally n hd i I2.
Proof.
  intros E Y Eq. unfold locally in Eq. destruct (Nat.eqb_spec i (nidx n I2)) as [Ei|Ni].
  - assert (Li : i < n). { assert (W := Wf). rewrite E in W. apply wfi_app in W as (_ & W). apply wfi_cons in W as ((W & _) & _). exact W. }
    destruct I2 as [|(j, g') I2]; [cbn in Ei; lia|]. cbn [nnode] in Eq.
    assert (N := nd_I). rewrite E, elems_app, !elems_cons in N. apply NoDup_app_iff in N as (_ & N & _).
    assert (W := Wf). rewrite E in W. apply wfi_app in W as (_ & W). apply wfi_cons in W as (_ & W). apply wfi_cons in W as ((_ & Sg & _) & _).
    eapply (nd_neq _ _ N Y); [apply in_or_app; left; apply first_in; exact Sg|exact Eq].
  - apply (wfi_null Wf). rewrite E, elems_app, elems_cons, !in_app_iff. rewrite Eq in Y. auto.
Qed.
Lemma in_group_lay x I1 i g I2 : uniq = false -> I = I1 ++ (i, g) :: I2 -> forall g2 g1 y fuel, g = g1 ++ y :: g2 -> length g2 < fuel ->
  Ro (in_group uniq L fuel x y (locally n hd i I2)) (fun r => r = has x (y :: g2)).
Proof.
  intros U E. induction g2 as [|y' g2 IH]; intros g1 y fuel Eg Lf; destruct fuel as [|fuel]; try (cbn in Lf; lia); cbn [in_group].
  - unfold has. cbn [existsb]. rewrite Nat.eqb_sym. destruct (x =? y); [now apply Ro_ret|].
    eapply Ro_hp; [|rewrite Nat.eqb_refl; now apply Ro_ret].
    replace y with (last_of g) by (rewrite Eg; apply last_last). exact (after_local_last hd L t s F Wf Hs UQ LV SZ _ _ _ _ E).
  - unfold has. cbn [existsb]. rewrite Nat.eqb_sym. destruct (x =? y) eqn:Exy; [now apply Ro_ret|].
    eapply Ro_hp; [eapply after_in; eauto; rewrite <- Eg; exact E|].
    rewrite (proj2 (Nat.eqb_neq _ _)); [|eapply locally_out; eauto; rewrite Eg, in_app_iff; cbn; auto].
    cbn [orb]. apply (IH (g1 ++ [y])); [rewrite Eg, <- app_assoc; reflexivity|cbn in Lf; lia].
Qed.

Variable k : K.
Variable x : node.
Notation p := (fun y => eq k (kf y)).
Lemma locally_at i g J : locally n hd i ((i, g) :: J) = first_of g.
Proof. unfold locally. cbn [nidx nnode]. now rewrite Nat.eqb_refl. Qed.
Lemma n_loop i R : uniq = false -> forall I1 Y fuel found rs, I = I1 ++ map (pair i) R ++ Y -> nidx n Y <> i ->
  length (concat R) < fuel ->
  Ro (n_in_place throws key eq uniq L fuel x k (locally n hd i (map (pair i) R ++ Y)) found rs) (fun r => r = npl p x R found rs).
Proof.
  intros U. induction R as [|g R IH]; intros I1 Y fuel found rs E NY Lf; destruct fuel as [|fuel]; try (cbn in Lf; lia); cbn [n_in_place].
  - cbn [map app]. unfold locally. rewrite (proj2 (Nat.eqb_neq i (nidx n Y))) by auto. cbn. now apply Ro_ret.
  - cbn [map app] in *. rewrite locally_at.
    assert (W := Wf). rewrite E in W. apply wfi_app in W as (_ & W). apply wfi_cons in W as ((Li & Sg & Ng) & _).
    rewrite (@first_ne t I Wf _ _ _ _ E).
    assert (H := Hs). rewrite E in H. assert (W := Wf). rewrite E in W.
    eapply Ro_hp; [eapply first_of_group_lay; [exact W|exact H]|].
    assert (Lv : forall y, In y g -> live b y) by (intros y Y'; eapply (item_live L s LV); eauto).
    assert (Fg : In (first_of g) g) by now apply first_in.
    assert (E' : I = (I1 ++ [(i, g)]) ++ map (pair i) R ++ Y) by now rewrite <- app_assoc.
    cbn [concat] in Lf. rewrite app_length in Lf.
    assert (Lg : 0 < length g) by (destruct g; [easy|cbn; lia]).
    cbn [npl]. destruct (2 <? length g) eqn:L2.
    + destruct (first_of g =? x) eqn:Ex.
      * eapply Ro_hp; [eapply Rd_bind; [eapply second_lay; eauto|now rewrite Rd_eq]|]. eapply (Ro_test1 key O); [apply Lv; now apply second_in|reflexivity].
      * eapply Ro_hp.
        { eapply Rd_bind with (r := PN (second g)).
          - eapply second_lay; eauto.
          - eapply Rd_bind with (r := last_of g).
            + refine (@Rd_bind_inv _ _ _ pri _ _ _ (second_lay _ _ _ _ E L2) (last_by_first_lay _ _ _ _ _ _ _ W H _)). apply Nat.ltb_lt in L2. lia.
            + exact (after_local_last hd L t s F Wf Hs UQ LV SZ _ _ _ _ E). }
        apply (Ro_test key O); [auto|]. destruct (eq k (kf (first_of g))) eqn:P.
        -- destruct found; [now apply Ro_ret|]. destruct g as [|y g2] eqn:Eg; [easy|]. cbn [first_of List.hd].
           eapply in_group_lay with (g1 := []); [exact U|exact E|reflexivity|cbn in Lf; lia].
        -- destruct ((rs =? 1) && negb found); [now apply Ro_ret|]. destruct (rs =? 2); [now apply Ro_ret|].
           apply (IH _ _ _ _ _ E' NY). lia.
    + destruct (single_or Sg) as [(y & ->)|Hg]; [|congruence]. cbn [first_of List.hd].
      assert (Af : Rd (after_local uniq y) (locally n hd i (map (pair i) R ++ Y)) (hp t)).
      { change y with (last_of [y]). exact (after_local_last hd L t s F Wf Hs UQ LV SZ _ _ _ _ E). }
      destruct (y =? x) eqn:Ex.
      * destruct (rs =? 1); [now apply Ro_ret|]. eapply Ro_hp; [exact Af|]. apply (IH _ _ _ _ _ E' NY). lia.
      * apply (Ro_test key O); [apply Lv; now left|]. destruct (eq k (kf y)).
        -- destruct ((rs =? 0) && found); [now apply Ro_ret|]. destruct ((rs =? 1) && negb found); [now apply Ro_ret|].
           destruct (rs =? 2); [now apply Ro_ret|]. eapply Ro_hp; [exact Af|]. apply (IH _ _ _ _ _ E' NY). lia.
        -- destruct ((rs =? 1) && negb found); [now apply Ro_ret|]. destruct (rs =? 2); [now apply Ro_ret|].
           eapply Ro_hp; [exact Af|]. apply (IH _ _ _ _ _ E' NY). lia.
Qed.
Lemma u_loop i R : uniq = true -> forall I1 Y fuel found, I = I1 ++ map (pair i) R ++ Y -> nidx n Y <> i ->
  length (concat R) < fuel ->
  Ro (u_in_place throws key eq uniq L fuel x k (locally n hd i (map (pair i) R ++ Y)) found) (fun r => r = upl p x R found).
Proof.
  intros U. induction R as [|g R IH]; intros I1 Y fuel found E NY Lf; destruct fuel as [|fuel]; try (cbn in Lf; lia); cbn [u_in_place].
  - cbn [map app]. unfold locally. rewrite (proj2 (Nat.eqb_neq i (nidx n Y))) by auto. cbn. now apply Ro_ret.
  - cbn [map app] in *. rewrite locally_at. rewrite (@first_ne t I Wf _ _ _ _ E).
    destruct (item_one hd L t s F Wf Hs UQ LV SZ _ _ _ _ E U) as (y & ->). cbn [first_of List.hd upl].
    assert (E' : I = (I1 ++ [(i, [y])]) ++ map (pair i) R ++ Y) by now rewrite <- app_assoc.
    assert (Lv : live b y) by (eapply (item_live L s LV); eauto; now left).
    assert (Af : Rd (after_local uniq y) (locally n hd i (map (pair i) R ++ Y)) (hp t)).
    { change y with (last_of [y]). exact (after_local_last hd L t s F Wf Hs UQ LV SZ _ _ _ _ E). }
    cbn [concat app length] in Lf. destruct (y =? x) eqn:Ex.
    + eapply Ro_hp; [exact Af|]. apply (IH _ _ _ _ E' NY). lia.
    + apply (Ro_test key O); [auto|]. destruct (eq k (kf y)); [now apply Ro_ret|]. eapply Ro_hp; [exact Af|]. apply (IH _ _ _ _ E' NY). lia.
Qed.
Lemma in_place_lay i : i < n ->
  Ro (in_place throws key eq uniq L x k i) (fun r => r = if uniq then upl p x (brun i I) false else npl p x (brun i I) false 0).
Proof.
  intros Li. unfold in_place, at_. apply Ro_get. eapply Ro_hp; [eapply bucket_lay; [exact Hs|exact Li]|]. apply (Ro_bound O).
  assert (CT := layout_contig _ _ _ _ _ Hs).
  destruct (@bucket_split n i I CT) as (X & Y & E & NX & NY).
  assert (Ny : nidx n Y <> i). { destruct Y as [|(j, g) Y]; cbn [nidx]; [lia|]. intros ->. apply NY. now left. }
  assert (Eb : bfirst i I = locally n hd i (map (pair i) (brun i I) ++ Y)).
  { revert E. generalize (brun i I). intros R E. rewrite E. clear - NX NY Ny. induction X as [|(j, g) X IH].
    - destruct R as [|g R]; cbn [map app bfirst].
      + unfold locally. rewrite (proj2 (Nat.eqb_neq i (nidx n Y))) by auto. clear Ny. induction Y as [|(j, g) Y IH]; [reflexivity|]. cbn [bfirst].
        cbn [map fst In] in NY. rewrite (proj2 (Nat.eqb_neq i j)) by intuition. apply IH. tauto.
      + rewrite Nat.eqb_refl. symmetry. apply locally_at.
    - cbn [app bfirst]. cbn [map fst In] in NX. rewrite (proj2 (Nat.eqb_neq i j)) by intuition. apply IH. tauto. }
  assert (Lf : length (concat (brun i I)) < cget L s + 4).
  { assert (E' : elems (map (pair i) (brun i I)) = concat (brun i I)).
    { generalize (brun i I). intros l. induction l as [|g l IH]; [reflexivity|]. cbn [map concat]. now rewrite elems_cons, IH. }
    assert (Z := SZ). rewrite E, !elems_app, !app_length, E' in Z. lia. }
  rewrite Eb. destruct (bool_dec uniq true) as [U|U].
  - apply Ro_ift; auto. eapply Ro_conseq; [apply (@u_loop i (brun i I) U _ _ _ _ E Ny Lf)|]. cbn beta. intros r ->. now rewrite U.
  - apply not_true_is_false in U. apply Ro_iff; auto. eapply Ro_conseq; [apply (@n_loop i (brun i I) U _ _ _ _ _ E Ny Lf)|]. cbn beta. intros r ->. now rewrite U.
Qed.

(** in_place answers whether the element is where it should be *)
Theorem in_place_ok val0 : 0 < n -> k = kf x -> In x (elems I) -> (forall y, y <> x -> val0 y = vl y) ->
  hok key eq hash uniq val0 (n, I) ->
  Ro (in_place throws key eq uniq L x k (position (hash k) n)) (fun r => r = true <-> hok key eq hash uniq vl (n, I)).
Proof.
  intros N Ek X Same (G & CL). eapply Ro_conseq; [apply in_place_lay; eapply position_lt; eauto|]. cbn beta. intros r ->. rewrite Ek.
  exact (@placed_iff _ _ key eq hash uniq HO val0 vl x Same n I G CL nd_I X (layout_contig _ _ _ _ _ Hs)).
Qed.
End Loops.
