(** Containers with any list of indices. *)
From Verif Require Import Prelude SeqModel SeqSpec SeqHeap OrdModel OrdTree OrdHeap OrdTrav Layer LayerBase
  OrdIdx OrdSpec OrdLook OrdPoint OrdLayer OrdOk PosIdx PosOk SeqIdx RndModel RndProofs RndIdx.
From Verif Require HashModel HashIdx HashHeap HashLay HashSpec HashRehash HashOk.
Set Implicit Arguments.

Section Stack.
Variable V : Type.
Variable throws : nat -> bool.
Variable pick : list node -> node.
Variable dv : V.
Variable hd : node.

(** An index specifier: ordered_unique, ordered_non_unique, ranked_unique, ranked_non_unique
    (ordered_index_fwd.hpp, ranked_index_fwd.hpp), sequenced (sequenced_index_fwd.hpp),
    random_access (random_access_index_fwd.hpp), hashed_unique or hashed_non_unique
    (hashed_index_fwd.hpp).  [junk], [jn], [jp], [ju] and [jh] are the contents of the link fields
    of a node before it is linked; [n0] is the number of buckets asked for at construction, and
    [pol] stands for computations with floats, see [HashIdx.policy]. *)
Inductive code : Type :=
| Ordered (K : Type) (key : V -> K) (lt : K -> K -> bool) (uniq rk : bool) (junk : cell)
| Sequenced (jn jp : node)
| RandomAccess (ju : nat)
| Hashed (K : Type) (key : V -> K) (eq : K -> K -> bool) (hash : K -> nat) (uniq : bool)
         (jh : HashModel.bptr * HashModel.bptr) (n0 : nat) (pol : HashIdx.policy).

(** requirements on the arguments of a specifier *)
Definition code_ok (c : code) : Prop :=
  match c with
  | Ordered key lt uniq rk junk => swo lt
  | Sequenced jn jp => True
  | RandomAccess ju => True
  | Hashed key eq hash uniq jh n0 pol => HashSpec.heq_ok eq hash
  end.

(** one index over its super; index_applier, detail/base_type.hpp:34-43 *)
Definition layer_of (c : code) (L : Layer V) : Layer V :=
  match c with
  | Ordered key lt uniq rk junk => ordered throws key lt uniq rk hd junk L
  | Sequenced jn jp => sequenced hd jn jp L
  | RandomAccess ju => random_access throws ju L
  | Hashed key eq hash uniq jh n0 pol => HashIdx.hashed throws pick key eq hash uniq hd jh L
  end.
Definition kind_of (c : code) : kind V :=
  match c with
  | Ordered key lt uniq rk junk => ord_kind key lt uniq hd
  | Sequenced jn jp => pos_kind V
  | RandomAccess ju => pos_kind V
  | Hashed key eq hash uniq jh n0 pol => HashSpec.hkind key eq hash uniq
  end.
Definition rep_of (c : code) (L : Layer V) (S : Spec V) (rep : St L -> AV S -> Prop) :
  St (layer_of c L) -> AV (cons_spec (kind_of c) S) -> Prop :=
  match c with
  | Ordered key lt uniq rk junk => @ord_rep V rk hd L S rep
  | Sequenced jn jp => @seq_rep V hd L S rep
  | RandomAccess ju => @rnd_rep V hd L S rep
  | Hashed key eq hash uniq jh n0 pol => @HashOk.hrep V _ throws pick key eq hash uniq hd jh L S rep
  end.
Definition shell_of (c : code) (L : Layer V) (shell : St L -> Prop) : St (layer_of c L) -> Prop :=
  match c with
  | Ordered key lt uniq rk junk => @ord_shell V hd L shell
  | Sequenced jn jp => @seqs_shell V hd L shell
  | RandomAccess ju => @rnds_shell V hd L shell
  | Hashed key eq hash uniq jh n0 pol => @HashOk.hshell V _ throws pick key eq hash uniq hd jh L shell
  end.

Section World.
Variable W : World V.
Variable AW : Type.
Variable wrep : WS W -> AW -> Prop.
Variable wready : node -> AW -> Prop.
Variable wrem : node -> AW -> AW.

(** multi_index_base_type, detail/base_type.hpp:45-66: the base class of a container with
    the indices [cs] *)
Fixpoint stack (cs : list code) : Layer V :=
  match cs with
  | [] => base throws pick W
  | c :: cs => layer_of c (stack cs)
  end.
Fixpoint spec (cs : list code) : Spec V :=
  match cs with
  | [] => base_spec V wready wrem
  | c :: cs => cons_spec (kind_of c) (spec cs)
  end.
Fixpoint srep (cs : list code) : St (stack cs) -> AV (spec cs) -> Prop :=
  match cs return St (stack cs) -> AV (spec cs) -> Prop with
  | [] => fun s a => wrep (snd s) a
  | c :: cs => @rep_of c (stack cs) (spec cs) (@srep cs)
  end.
Fixpoint sshell (cs : list code) : St (stack cs) -> Prop :=
  match cs return St (stack cs) -> Prop with
  | [] => fun s => exists a, wrep (snd s) a
  | c :: cs => @shell_of c (stack cs) (@sshell cs)
  end.

Hypothesis pick_ok : forall l, ~ In (pick l) (null :: l).
Hypothesis OW : WOK W wrep wready wrem.

Theorem stack_ok cs : Forall code_ok cs ->
  OK throws pick dv hd (stack cs) (spec cs) (@srep cs) (@sshell cs).
Proof.
  induction 1 as [|c cs H F IH].
  - now apply base_ok.
  - destruct c; cbn in *.
    + now apply ordered_ok.
    + now apply sequenced_ok.
    + now apply random_access_ok.
    + now apply HashOk.hashed_ok.
Qed.

(** ** facts about all specifications *)
Lemma spec_index c cs a : els (spec (c :: cs)) a <> [].
Proof. easy. Qed.
Lemma spec_ready cs x (a : AV (spec cs)) : aready (spec cs) Emplaced x a.
Proof. induction cs; cbn in *; auto. Qed.
Lemma spec_len cs (a : AV (spec cs)) : length (els (spec cs) a) = length cs.
Proof. induction cs; cbn in *; auto. Qed.

(** elements of a container do not conflict *)
Lemma ord_noconf K (key : V -> K) lt uniq val l : swo lt -> sorted key lt uniq val l ->
  forall x y, In x l -> In y l -> x <> y -> ~ o_conf key lt uniq (val x) (val y).
Proof.
  intros SW Ss x y Ix Iy N (U & A & B). unfold sorted, rel in Ss. rewrite U in Ss.
  induction Ss as [|z l Sl IH F]; [easy|]. rewrite Forall_forall in F.
  destruct Ix as [->|Ix], Iy as [->|Iy]; auto.
  - apply F in Iy. congruence.
  - apply F in Ix. congruence.
Qed.
Lemma spec_noconf cs : Forall code_ok cs -> forall val (a : AV (spec cs)), aok (spec cs) val a ->
  forall x y, (forall l, In l (els (spec cs) a) -> In x l /\ In y l) -> x <> y ->
  ~ aconf (spec cs) (val x) (val y).
Proof.
  induction 1 as [|c cs H F IH]; cbn; [easy|]. intros val (a0, a) (A0 & A) x y I N [C|C]; cbn in *.
  - destruct (I _ (or_introl eq_refl)) as (Ix & Iy). destruct c; cbn in *.
    + exact (ord_noconf H A0 Ix Iy N C).
    + exact C.
    + exact C.
    + destruct a0 as (n, J). refine (HashOk.hok_noconf H A0 Ix Iy _ C). congruence.
  - revert C. apply (IH val a); auto.
Qed.

(** ** the world under a stack *)
Fixpoint swld (cs : list code) : St (stack cs) -> WS W :=
  match cs return St (stack cs) -> WS W with
  | [] => fun s => snd s
  | c :: cs => match c return St (layer_of c (stack cs)) -> WS W with
               | Ordered _ _ _ _ _ => fun s => @swld cs (snd s)
               | Sequenced _ _ => fun s => @swld cs (snd s)
               | RandomAccess _ => fun s => @swld cs (snd s)
               | Hashed _ _ _ _ _ _ _ => fun s => @swld cs (snd s)
               end
  end.
Fixpoint sworld (cs : list code) : AV (spec cs) -> AW :=
  match cs return AV (spec cs) -> AW with
  | [] => fun a => a
  | c :: cs => fun a => @sworld cs (snd a)
  end.
Lemma wld_get cs (s : St (stack cs)) : bget (stack cs) s = wget W (swld cs s).
Proof. induction cs as [|c cs IH]; [reflexivity|]. destruct c; cbn in *; apply IH. Qed.
Lemma wld_rep cs (s : St (stack cs)) a : srep cs s a -> wrep (swld cs s) (sworld cs a).
Proof.
  induction cs as [|c cs IH]; cbn in *; [auto|]. destruct c; cbn in *; intros (_ & R); now apply IH.
Qed.
Lemma wld_ins cs var val h a x a' : ains (spec cs) var val h a x a' ->
  sworld cs a' = match var with Transfer => wrem x (sworld cs a) | _ => sworld cs a end.
Proof. induction cs as [|c cs IH]; cbn in *; [now destruct var|]. intros (_ & A). now apply IH. Qed.
Lemma wld_same cs val a a' : asame (spec cs) val a a' -> sworld cs a' = sworld cs a.
Proof. induction cs as [|c cs IH]; cbn in *; [auto|]. intros (_ & A). now apply IH. Qed.
Lemma wld_rem cs x a : sworld cs (arem (spec cs) x a) = sworld cs a.
Proof. induction cs as [|c cs IH]; cbn in *; auto. Qed.
Lemma wld_mov cs val x a a' : amov (spec cs) val x a a' -> sworld cs a' = sworld cs a.
Proof. induction cs as [|c cs IH]; cbn in *; [auto|]. intros (_ & A). now apply IH. Qed.
Lemma wld_ready cs x a : wready x (sworld cs a) -> aready (spec cs) Transfer x a.
Proof. induction cs as [|c cs IH]; cbn in *; auto. Qed.

(** ** a new container *)

(** The constructors of the indices, ord_index_impl.hpp:721-782, sequenced_index.hpp:671-703
    (empty_initialize), random_access_index.hpp:755-790 (rnd_index_ptr_array.hpp:50-58),
    hashed_index.hpp:751-766 (bucket_array.hpp:142-147): [w] is a
    world in which the header node is allocated. *)
Definition fresh_of (c : code) (L : Layer V) (s : St L) : St (layer_of c L) :=
  match c return St (layer_of c L) with
  | Ordered _ _ _ _ _ => (fun y => if y =? hd then Some (mk hd hd null Red 0) else None, s)
  | Sequenced _ _ =>
      let self y := if y =? hd then Some hd else None in (mkS self self 0 0, s)
  | RandomAccess _ =>
      (mkR (fun p => if p =? 0 then Some hd else None) (fun y => if y =? hd then Some 0 else None) 0 0 0 1 0, s)
  | Hashed _ _ _ _ _ n0 pol =>
      let n := HashModel.bcount n0 in
      (HashIdx.mkH (HashModel.new_array 0 n hd (fun _ => None)) 0 n (HashIdx.load pol n) pol, s)
  end.
Fixpoint fresh (cs : list code) (w : WS W) : St (stack cs) :=
  match cs with
  | [] => (0, w)
  | c :: cs => fresh_of c (stack cs) (fresh cs w)
  end.
Lemma wld_fresh cs w : swld cs (fresh cs w) = w.
Proof. induction cs as [|c cs IH]; cbn; auto. destruct c; cbn; auto. Qed.
Lemma fresh_cget cs w : cget (stack cs) (fresh cs w) = 0.
Proof. induction cs as [|c cs IH]; cbn; auto. destruct c; cbn; auto. Qed.
Definition empty_of (c : code) : kv (kind_of c) :=
  match c return kv (kind_of c) with
  | Ordered _ _ _ _ _ => []
  | Sequenced _ _ => []
  | RandomAccess _ => []
  | Hashed _ _ _ _ _ n0 _ => (HashModel.bcount n0, [])
  end.
Fixpoint empty (cs : list code) (a : AW) : AV (spec cs) :=
  match cs return AV (spec cs) with
  | [] => a
  | c :: cs => (empty_of c, empty cs a)
  end.
Lemma empty_els cs a l : In l (els (spec cs) (empty cs a)) -> l = [].
Proof. induction cs as [|c cs IH]; cbn; [easy|]. intros [<-|I]; auto. now destruct c. Qed.
Lemma empty_ok cs val a : aok (spec cs) val (empty cs a).
Proof. induction cs as [|c cs IH]; cbn; auto. split; auto. destruct c; cbn; auto. constructor. exists []. split; [reflexivity|split; constructor]. Qed.
Lemma fresh_rep cs w a : hd <> null -> wrep w a -> srep cs (fresh cs w) (empty cs a).
Proof.
  intros H R. induction cs as [|c cs IH]; cbn; auto. destruct c; cbn; (split; [|auto]); cbn.
  - exists E, 0. splits; auto.
    + split; cbn.
      * constructor; [cbn; intuition congruence|]. constructor; [cbn; tauto|constructor].
      * constructor; auto. cbn. now rewrite Nat.eqb_refl.
    + split; cbn; auto. splits; auto. exists 0. constructor.
  - split; [|split; [|constructor]].
    + constructor; [|constructor]. cbn. unfold SeqHeap.R. cbn. now rewrite !Nat.eqb_refl.
    + cbn. constructor; [easy|constructor].
  - split; cbn; auto.
    + intros [|i] x E; [|destruct i; discriminate]. now injection E as <-.
    + intros [|i] x E; [|destruct i; discriminate]. injection E as <-. now rewrite Nat.eqb_refl.
    + intros i Li. replace i with 0 by lia. easy.
    + intros [|p] Lp; [lia|reflexivity].
    + constructor; [easy|constructor].
    + intuition.
  - split; [reflexivity|]. split; [apply HashRehash.tabled_bcount|]. split; [|split; [intros _; constructor|]].
    + constructor.
    + cbn [HashIdx.hp HashIdx.arr HashIdx.bc snd]. rewrite <- (app_nil_r (HashHeap.layout _ _ _ _)). apply HashRehash.new_array_lay; [split; constructor|easy].
Qed.
End World.
End Stack.
