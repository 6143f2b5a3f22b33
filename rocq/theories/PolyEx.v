(** An instance of the polynomial oracle, for examples: it knows affine polynomials and the
    square, and declines everything else. *)
From Coq Require Import List Bool String Reals Lra Lia ZArith.
From Verif Require Import Base Num Sets SetSpec Poly.
Import ListNotations.
Local Open Scope R_scope.

Section Small.
  Context (N : numsys).
  Notation num := (num N).

  Definition is_square (cs : list num) : bool :=
    match cs with
    | [a; b; c] => neqb a (nint 0) && neqb b (nint 0) && neqb c (nint 1)
    | _ => false
    end.
  Definition affine (cs : list num) : option (num * num) :=
    match cs with [a; b] => if neqb b (nint 0) then None else Some (a, b) | _ => None end.
  Definition small_range (cs : list num) : option (prange N) :=
    match affine cs with
    | Some _ => Some (PRIv NInf PInf true true)
    | None => if is_square cs then Some (PRIv (Fin (nint 0)) PInf false true) else None
    end.
  Definition small_nroots (cs : list num) (y : num) : option (list num) :=
    match affine cs with
    | Some (a, b) => Some [nmul (nadd y (nopp a)) (ninv b)]
    | None =>
      if is_square cs then
        if neqb y (nint 1) then Some [nint (-1); nint 1]
        else if neqb y (nint 4) then Some [nint (-2); nint 2]
        else if neqb y (nint 0) then Some [nint 0; nint 0]
        else if neqb y (nint (-1)) then Some []
        else None
      else None
    end.

  Lemma affine_ok : forall cs a b, affine cs = Some (a, b) -> toR b <> 0 /\ forall x, Rpoly cs x = toR a + x * toR b.
  Proof.
    intros [|a' [|b' [|]]] a b H; try discriminate. simpl in H. destruct (neqb b' (nint 0)) eqn:E; [discriminate|].
    injection H as <- <-. split.
    - intros K. enough (neqb b' (nint 0) = true) by congruence. apply neqb_ok. now rewrite nint_ok.
    - intros x. simpl. lra.
  Qed.
  Lemma square_ok : forall cs, is_square cs = true -> forall x, Rpoly cs x = x * x.
  Proof.
    intros [|a [|b [|c [|]]]] H; try discriminate. simpl in H. apply andb_true_iff in H. destruct H as (H & H3).
    apply andb_true_iff in H. destruct H as (H1 & H2). apply neqb_ok in H1, H2, H3. rewrite nint_ok in H1, H2, H3.
    intros x. simpl. rewrite H1, H2, H3. lra.
  Qed.

  Definition po_small : polyoracle N.
  Proof.
    refine {| po_range := small_range; po_ineq := fun _ _ _ => None; po_eq := fun _ _ => None; po_nroots := small_nroots |};
      try discriminate.
    - intros cs r H y. unfold small_range in H. destruct (affine cs) as [(a, b)|] eqn:E.
      + injection H as <-. apply affine_ok in E. destruct E as (Nz & E). simpl. split; auto. intros _.
        exists ((y - toR a) / toR b). rewrite E. field. auto.
      + destruct (is_square cs) eqn:S; [|discriminate]. injection H as <-. pose proof (square_ok _ S) as Q. simpl. rewrite nint_ok. split.
        * intros (H & _). exists (sqrt y). rewrite Q. apply sqrt_sqrt. destruct H as [H|H]; [simpl in H; lra|injection H; lra].
        * intros (x & <-). rewrite Q. split; auto. unfold ele. simpl. pose proof (Rle_0_sqr x) as K. unfold Rsqr in K.
          destruct K; [left; lra|right; f_equal; lra].
    - intros cs y rs H. unfold small_nroots in H. destruct (affine cs) as [(a, b)|] eqn:E.
      + injection H as <-. apply affine_ok in E. destruct E as (Nz & E). exists (fun _ => toR b). split.
        * intros x. rewrite E. simpl. rewrite nmul_ok, nadd_ok, nopp_ok, ninv_ok by auto. field. auto.
        * destruct (Rtotal_order (toR b) 0) as [K|[K|K]]; [right|contradiction|left]; auto.
      + destruct (is_square cs) eqn:S; [|discriminate]. pose proof (square_ok _ S) as Q.
        destruct (neqb y (nint 1)) eqn:Y1; [|destruct (neqb y (nint 4)) eqn:Y4;
          [|destruct (neqb y (nint 0)) eqn:Y0; [|destruct (neqb y (nint (-1))) eqn:Ym; [|discriminate]]]]; injection H as <-.
        * apply neqb_ok in Y1. rewrite nint_ok in Y1. exists (fun _ => 1). split; [|left; intros; lra].
          intros x. rewrite Q, Y1. simpl. rewrite !nint_ok. lra.
        * apply neqb_ok in Y4. rewrite nint_ok in Y4. exists (fun _ => 1). split; [|left; intros; lra].
          intros x. rewrite Q, Y4. simpl. rewrite !nint_ok. lra.
        * apply neqb_ok in Y0. rewrite nint_ok in Y0. exists (fun _ => 1). split; [|left; intros; lra].
          intros x. rewrite Q, Y0. simpl. rewrite !nint_ok. lra.
        * apply neqb_ok in Ym. rewrite nint_ok in Ym. exists (fun x => x * x + 1). split.
          -- intros x. rewrite Q, Ym. simpl. lra.
          -- left. intros x. pose proof (Rle_0_sqr x) as K. unfold Rsqr in K. lra.
  Defined.
End Small.
