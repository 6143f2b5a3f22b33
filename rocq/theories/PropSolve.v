(** C56: solving a comparison of a chain of functions of one variable returns, and the answer is
    exact. *)
From Coq Require Import List Bool String Reals Lra Lia ZArith.
From Verif Require Import Base Num Sets SetSpec SetProofs SetOr SetBuilt Poly Trans TransSpec TransFacts InvProofs ArithProofs PropTrans SolveSpec InvTotal.
Import ListNotations.
Local Open Scope R_scope.

Section C56.
  Context {N : numsys} (io : iterorder N) (po : polyoracle N) (fuel : nat).
  Notation tr := (tr N).

  Lemma chain_good : forall (t : tr) k, chain po k t -> good t /\ realv t.
  Proof.
    induction t; intros q C; cbn in C; try contradiction; cbn [good realv].
    - auto.
    - destruct (IHt _ C). auto.
    - destruct C as (L & _ & _ & C). destruct (IHt _ C). auto.
    - destruct C as (L & _ & C). destruct (IHt _ C). auto.
    - destruct C as (_ & C). destruct (IHt _ C). auto.
    - destruct C as (_ & C). destruct (IHt _ C). auto.
    - destruct coeffs as [|c0 [|c1 [|c2 [|]]]]; try contradiction; [destruct C as (_ & C)|destruct C as (_ & _ & C)]; destruct (IHt _ C); auto.
  Qed.
  Lemma chained_good : forall e : tr, chained po e -> gev e /\ exists x, symbols e = [x].
  Proof.
    intros e C. destruct (chained_fit po e C) as (k & j & t & v & -> & Nj & Ct & Fv). destruct (chain_good t k Ct) as (G & Rv). destruct (chain_symbols po t k Ct) as (x & Ex).
    split; [|exists x; exact Ex]. split; [|reflexivity]. destruct (fit_wf k v Fv) as (Wv & _). cbn in C |- *. destruct j; try contradiction.
    - destruct v as [|[|vs|i]|]; try contradiction. ands; eauto.
    - destruct v as [|[|vs|i]|]; try contradiction. ands; eauto.
  Qed.
  Lemma solvable_good : forall e : tr, solvable po e -> gev e /\ exists x, In x (symbols e) /\ only x e.
  Proof.
    intros e S. assert (K : chained po e \/ exists l, e = EOr l) by (destruct e; cbn in S; try tauto; eauto). destruct K as [C|(l & ->)].
    - destruct (chained_good e C) as (G & x & Ex). split; auto. exists x. unfold only. rewrite Ex. split; [now left|]. intros y [<-|[]]. reflexivity.
    - cbn in S. destruct S as (Ne & Cl & x & Sx). rewrite Forall_forall in *. split.
      + split; [|reflexivity]. cbn [good]. split; auto. clear Ne Sx. induction l as [|e l IH]; [exact I|]. split; [apply (chained_good e); apply Cl; now left|apply IH; intros; apply Cl; now right].
      + exists x. cbn [symbols]. unfold only, sunions. cbn [symbols]. split.
        * destruct l as [|e l]; [tauto|]. apply dedup_string_In, in_concat. exists (symbols e). split; [apply in_map; now left|rewrite Sx; [now left|now left]].
        * intros y Hy. unfold sunions in Hy. apply dedup_string_In, in_concat in Hy. destruct Hy as (m & Hm & Hy). apply in_map_iff in Hm. destruct Hm as (e & <- & He). rewrite (Sx e He) in Hy. destruct Hy as [<-|[]]. reflexivity.
  Qed.

  (** The comparison is solved, and the set returned holds the numbers of which it is true. *)
  Theorem C56_comparison_solved_partial : forall e : tr, (2 <= fuel)%nat -> solvable po e ->
    exists X r, In X (symbols e) /\ solve io po fuel e = Ok r /\ wf r /\ real_set r /\
      forall w, regular false e w -> (fm (w X) r <-> holds e w).
  Proof.
    intros e Hf S. destruct (solvable_good e S) as (G & X & Hx & On). destruct (solve_total io po fuel e Hf S) as (r & E & W & R). exists X, r.
    split; [exact Hx|]. split; [exact E|]. split; [exact W|]. split; [exact R|]. now apply (C11_solve_exact io po fuel X e r false G On E).
  Qed.
  Theorem C56_plain_comparison_solved_partial : forall e : tr, (2 <= fuel)%nat -> solvable po e -> plain e ->
    exists X r, In X (symbols e) /\ solve io po fuel e = Ok r /\ wf r /\ real_set r /\ forall w, fm (w X) r <-> holds e w.
  Proof.
    intros e Hf S P. destruct (C56_comparison_solved_partial e Hf S) as (X & r & A & B & C & D & E). exists X, r. ands; auto. intros w. apply E. now apply plain_regular.
  Qed.
End C56.
