(** Concrete memories used to show that hypotheses of theorems are met. *)
From Verif Require Import Prelude SeqModel SeqSpec.

Fixpoint chain (f : node -> option node) (x : node) (l : list node) (h : node) : node -> option node :=
  match l with
  | [] => upd f x (Some h)
  | y :: l' => upd (chain f y l' h) x (Some y)
  end.
(** memory holding the sequences [L] and the unlinked nodes [pool] *)
Definition mem (L : list (node * list node)) (pool : list node) : sst :=
  let e := fold_right (fun x f => upd f x (Some 0)) (fun _ => None) pool in
  mkS (fold_right (fun p f => chain f (fst p) (snd p) (fst p)) e L)
      (fold_right (fun p f => chain f (fst p) (rev (snd p)) (fst p)) e L) 0 0.

Ltac mem_ok :=
  split; [|split];
  [ repeat (apply Forall_cons; [vm_compute; repeat split|]); apply Forall_nil
  | vm_compute; repeat (apply NoDup_cons; [cbn; intuition lia|]); apply NoDup_nil
  | repeat (apply Forall_cons; [vm_compute; split; eexists; reflexivity|]); apply Forall_nil ].

Definition some_val (x : node) : option nat := if x <? 4 then None else Some x.

Lemma nat_lt_swo : strict_weak_order Nat.ltb.
Proof.
  split; [|split]; intros *; rewrite ?Nat.ltb_irrefl, ?Nat.ltb_lt, ?Nat.ltb_ge; lia.
Qed.
Lemma half_lt_swo : strict_weak_order (fun a b => Nat.ltb (a / 2) (b / 2)).
Proof.
  split; [|split]; intros *; rewrite ?Nat.ltb_irrefl, ?Nat.ltb_lt, ?Nat.ltb_ge; lia.
Qed.
