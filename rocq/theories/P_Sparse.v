(** Grouped differences are plain differences. *)
From Coq Require Import Reals List Arith Bool Lra Lia.
From Verif Require Import S_Sparse.
Import ListNotations.
Open Scope R_scope.

Section Sparse.
Context {I : Type}.
Variables (dec : forall i j : I, {i = j} + {i <> j}).
Variables (dom : I -> Prop) (structure : I -> I -> bool) (F : (I -> R) -> I -> R).
(** the used entries, listed *)
Variable cells : list I.
Hypothesis Hcells : forall i, dom i -> In i cells.
(** one entry at a time: outside the structure it does not matter *)
Hypothesis Hone : forall k j u1 u2, dom k -> dom j -> structure k j = false ->
  (forall m, dom m -> m <> j -> u1 m = u2 m) -> F u1 k = F u2 k.
Hypothesis Hout : forall k u1 u2, dom k -> (forall m, dom m -> u1 m = u2 m) -> F u1 k = F u2 k.
Hypothesis Hdom : forall i, {dom i} + {~ dom i}.

(** all entries at once *)
Lemma many k u1 u2 : dom k -> (forall m, dom m -> structure k m = true -> u1 m = u2 m) -> F u1 k = F u2 k.
Proof.
  intros Hk H.
  assert (G : forall l, F (fun m => if in_dec dec m l then u2 m else u1 m) k = F u1 k).
  { induction l as [|a l IH].
    - apply Hout; [exact Hk|]. intros m Hm. destruct (in_dec dec m []) as [[]|]; reflexivity.
    - rewrite <- IH.
      assert (E : forall m, m <> a -> (if in_dec dec m (a :: l) then u2 m else u1 m) = if in_dec dec m l then u2 m else u1 m).
      { intros m Hm. destruct (in_dec dec m (a :: l)) as [Hi|Hi], (in_dec dec m l) as [Hj|Hj]; try reflexivity; exfalso.
        - destruct Hi as [Hi|Hi]; [apply Hm; symmetry; exact Hi|apply Hj, Hi].
        - apply Hi. right. exact Hj. }
      destruct (Hdom a) as [Ha|Ha].
      + destruct (structure k a) eqn:S.
        * apply Hout; [exact Hk|]. intros m Hm. destruct (dec m a) as [->|N]; [|apply E, N].
          assert (H' := H a Ha S).
          destruct (in_dec dec a (a :: l)), (in_dec dec a l); congruence.
        * apply (Hone k a); [exact Hk|exact Ha|exact S|]. intros m Hm N. apply E, N.
      + apply Hout; [exact Hk|]. intros m Hm. apply E. intros ->. exact (Ha Hm). }
  rewrite <- (G cells). apply Hout; [exact Hk|]. intros m Hm.
  destruct (in_dec dec m cells) as [_|N]; [reflexivity|exfalso; apply N, Hcells, Hm].
Qed.

Lemma grouped group z steps k j z' : compatible dom structure group -> group_steps group j steps ->
  dom k -> dom j -> shifted z j (steps j) z' ->
  sparse_entry structure F z steps k j = quotient F z z' (steps j) k.
Proof.
  intros HC HG Hk Hj (S1 & S2). unfold sparse_entry, quotient.
  destruct (structure k j) eqn:S.
  - replace (F (fun m => z m + steps m) k) with (F z' k); [reflexivity|].
    apply many; [exact Hk|]. intros m Hm Sm. destruct (dec m j) as [->|N]; [exact S1|].
    rewrite S2 by exact N. rewrite HG; [ring|]. intros E. apply N. apply (HC k m j); assumption.
  - replace (F z' k) with (F z k).
    + unfold Rminus, Rdiv. rewrite Rplus_opp_r. ring.
    + apply many; [exact Hk|]. intros m Hm Sm. destruct (dec m j) as [->|N]; [congruence|].
      symmetry. apply S2, N.
Qed.
End Sparse.
