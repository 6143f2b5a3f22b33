(** Property C61: whether a set operation returns does not depend on the order in which Python
    iterates over frozensets (src/sets.py:280-362).  The hashes of sets include the address of
    their class (src/sets.py:94-96, 164-166, 259-261), so the order can change from one process
    to the next.  C07 is the companion for the members of the sets that are returned. *)
From Coq Require Import List Bool String Reals.
From Verif Require Import Base Num Sets SetSpec SetAlg PropSets PropSetsTotal.
Import ListNotations.

Definition returns {A} (x : res A) : Prop := exists r, x = Ok r.

Theorem C61_intersection : forall (N : numsys) (io io' : iterorder N) s t, wf s -> wf t ->
  real_set s \/ real_set t -> (returns (pand io s t) <-> returns (pand io' s t)).
Proof.
  intros N io io' [|b|u] [|c|w] Ws Wt R; try (simpl; tauto).
  - unfold returns. now rewrite !C05_intersection_exactly_left by assumption.
  - unfold returns. now rewrite !C05_intersection_exactly by assumption.
  - unfold returns. now rewrite !C05_unions_exactly by assumption.
Qed.

Theorem C61_union : forall (N : numsys) (io io' : iterorder N) s t, wf s -> wf t ->
  real_set s -> real_set t -> (returns (por io s t) <-> returns (por io' s t)).
Proof. intros. split; intros _; now apply C02_union_total. Qed.

(** complements of unions whose parts contain their finite ends, and of sets that are no unions *)
Theorem C61_complement_partial : forall (N : numsys) (io io' : iterorder N) s, wf s ->
  match s with PUnion u => Forall closed_part u | _ => True end ->
  (returns (pinv io s) <-> returns (pinv io' s)).
Proof.
  intros N io io' [|b|u] W C; [simpl; tauto| |].
  - destruct b as [vs f|vs|i]; [simpl; tauto| |].
    + unfold returns. now rewrite !C05_finite_complement_total_iff by assumption.
    + split; intros _; now apply C05_interval_complement_total.
  - unfold returns. now rewrite !C05_closed_complement_exactly by assumption.
Qed.
