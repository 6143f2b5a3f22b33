(** An instance of the polynomial oracle over any number system, for examples: it solves every
    linear equation and inequality, as SymPy is claimed to. *)
From Coq Require Import List Bool String Reals Lra Lia ZArith.
From Verif Require Import Base Num Sets SetSpec SetIv SetProofs SetOr SetOps SetAlg SetBuilt Poly Trans TransSpec PolyProofs InvProofs PolyEx SolveSpec InvTotal.
Import ListNotations.
Local Open Scope R_scope.

Lemma le_fin : forall a b, ele (Fin a) (Fin b) <-> a <= b.
Proof. intros a b. unfold ele, elt, Rle. split; intros [H|H]; auto; [injection H as <-|rewrite H]; auto. Qed.

Section Lin.
  Context (N : numsys).
  Notation num := (num N).
  Definition root (a b y : num) : num := nmul (nadd y (nopp a)) (ninv b).
  Definition lin_range (cs : list num) : option (prange N) := match affine N cs with Some _ => Some (PRIv NInf PInf true true) | None => None end.
  Definition lin_eq (cs : list num) (y : num) : option (pset N) := match affine N cs with Some (a, b) => Some (PB (BReal [Fin (root a b y)])) | None => None end.
  Definition lin_ineq (cs : list num) (y : num) (strict : bool) : option (pset N) :=
    match affine N cs with Some (a, b) => Some (half_line (nltb (nint 0) b) (root a b y) strict) | None => None end.
  Lemma root_ok : forall a b y, toR b <> 0 -> toR (root a b y) = (toR y - toR a) / toR b.
  Proof. intros a b y H. unfold root. rewrite nmul_ok, nadd_ok, nopp_ok, ninv_ok by exact H. field. exact H. Qed.
  Definition po_lin : polyoracle N.
  Proof.
    refine {| po_range := lin_range; po_ineq := lin_ineq; po_eq := lin_eq; po_nroots := fun _ _ => None |}; try discriminate.
    - intros cs r H y. unfold lin_range in H. destruct (affine N cs) as [(a, b)|] eqn:E; [|discriminate]. injection H as <-. apply affine_ok in E. destruct E as (Nz & E). simpl. split; auto. intros _.
      exists ((y - toR a) / toR b). rewrite E. field. auto.
    - intros cs y st s H. unfold lin_ineq in H. destruct (affine N cs) as [(a, b)|] eqn:E; [|discriminate]. injection H as <-. apply affine_ok in E. destruct E as (Nz & E). pose proof (root_ok a b y Nz) as Hr.
      assert (K : forall x, (if st then Rpoly cs x < toR y else Rpoly cs x <= toR y) <-> if nltb (nint 0) b then (if st then x < toR (root a b y) else x <= toR (root a b y)) else (if st then toR (root a b y) < x else toR (root a b y) <= x)).
      { intros x. rewrite E. set (r := toR (root a b y)) in *. assert (Ey : toR y = toR a + r * toR b) by (rewrite Hr; field; exact Nz). rewrite Ey. destruct (nltb (nint 0) b) eqn:L.
        - apply nltb_ok in L. rewrite nint0 in L. destruct st; split; intros; nra.
        - assert (Lb : toR b < 0). { destruct (Rlt_dec 0 (toR b)) as [K|K]; [|lra]. rewrite <- (nint0 (N:=N)) in K. apply nltb_ok in K. congruence. } destruct st; split; intros; nra. }
      set (i := if nltb (nint 0) b then mkIv NInf (Fin (root a b y)) true st else mkIv (Fin (root a b y)) PInf st true). assert (Wi : wf_iv i) by (unfold i; destruct (nltb (nint 0) b); repeat split; simpl; auto; discriminate).
      split; [exact Wi|]. split; [exact I|]. intros v.
      assert (Mi : forall x, iv_mem (Fin x) i <-> if st then Rpoly cs x < toR y else Rpoly cs x <= toR y).
      { intros x. rewrite (K x). unfold i, iv_mem. destruct (nltb (nint 0) b), st; cbn -[ele elt]; rewrite ?le_fin; unfold ele; cbn; tauto. }
      split.
      + intros H. destruct v as [x|q]; [|destruct H]. destruct (iv_inffree i Wi x H) as (r & ->). exists r. split; [reflexivity|]. now apply Mi.
      + intros (x & -> & H). apply Mi in H. exact H.
    - intros cs y s H. unfold lin_eq in H. destruct (affine N cs) as [(a, b)|] eqn:E; [|discriminate]. injection H as <-. apply affine_ok in E. destruct E as (Nz & E). pose proof (root_ok a b y Nz) as Hr.
      split; [split; [repeat constructor; intros []|discriminate]|split; [exact I|]]. intros v. cbn [mem bmem]. split.
      + destruct v as [x|q]; [|tauto]. intros (z & [<-|[]] & K). exists (toR (root a b y)). split; [now rewrite <- K|]. rewrite E, Hr. field. exact Nz.
      + intros (x & -> & K). exists (Fin (root a b y)). split; [now left|]. cbn. f_equal. rewrite Hr, <- K, E. field. exact Nz.
  Defined.
  Lemma lin_linear : forall c0 c1, toR c1 <> 0 -> linear po_lin c0 c1.
  Proof.
    intros c0 c1 H. split; [exact H|]. assert (A : affine N [c0; c1] = Some (c0, c1)). { cbn. destruct (neqb c1 (nint 0)) eqn:E; [|reflexivity]. exfalso. apply H. apply neqb_ok in E. now rewrite E, nint0. }
    cbn [po_lin po_range po_eq po_ineq]. unfold lin_range, lin_eq, lin_ineq. rewrite A. split; [reflexivity|]. intros b. exists (root c0 c1 b). split; [reflexivity|]. intros st. reflexivity.
  Qed.
End Lin.
