(** An instance of the polynomial oracle over the reals, for examples: it solves every linear and
    every quadratic equation and inequality, as SymPy is claimed to. *)
From Coq Require Import List Bool String Reals Lra Lia ZArith.
From Verif Require Import Base Num Sets SetSpec SetIv SetProofs SetOr SetOps SetAlg SetBuilt Poly Trans TransSpec PolyProofs InvProofs SolveSpec InvTotal.
Import ListNotations.
Local Open Scope R_scope.

Notation RN := Rnum_sys.
Notation setR := (pset RN).
Definition pt (x : R) : ext R := Fin x.
Definition point (x : R) : setR := PB (BReal (N:=RN) [Fin (x : num RN)]).
Definition points (x y : R) : setR := PB (BReal (N:=RN) [Fin (x : num RN); Fin (y : num RN)]).
Definition btw (r s : R) (st : bool) : setR := between (N:=RN) r s st.
Definition out (r s : R) (st : bool) : setR := outside (N:=RN) r s st.

Lemma le_fin : forall a b, ele (Fin a) (Fin b) <-> a <= b.
Proof. intros a b. unfold ele, elt, Rle. split; intros [H|H]; auto; [injection H as <-|rewrite H]; auto. Qed.
Lemma le_ni : forall b, ele NInf (Fin b) <-> True.
Proof. intros b. unfold ele. cbn. tauto. Qed.
Lemma le_ip : forall b, ele (Fin b) PInf <-> True.
Proof. intros b. unfold ele. cbn. tauto. Qed.
Ltac fins := repeat match goal with
  | |- context [ele (Fin _) (Fin _)] => rewrite le_fin
  | |- context [ele NInf (Fin _)] => rewrite le_ni
  | |- context [ele (Fin _) PInf] => rewrite le_ip
  end; cbn [elt].
Definition is (P : R -> Prop) (s : setR) : Prop := wf s /\ real_set s /\ forall v, mem v s <-> exists x, v = RNum (Fin x) /\ P x.

Lemma is_ext : forall (P Q : R -> Prop) s, (forall x, P x <-> Q x) -> is P s -> is Q s.
Proof. intros P Q s H (A & B & C). split; [exact A|split; [exact B|]]. intros v. rewrite C. split; intros (x & E & K); exists x; (split; [exact E|now apply H]). Qed.
Lemma is_empty : is (fun _ => False) PEmpty.
Proof. split; [exact I|split; [exact I|]]. intros v. cbn. split; [tauto|intros (x & _ & [])]. Qed.
Lemma is_iv : forall i : interval RN, wf_iv i -> is (fun x => iv_mem (N:=RN) (Fin x) i) (PB (BInt i)).
Proof.
  intros i W. split; [exact W|split; [exact I|]]. intros v. split.
  - intros H. destruct v as [x|s]; [|destruct H]. destruct (iv_inffree i W x H) as (r & ->). exists r. split; [reflexivity|exact H].
  - intros (x & -> & H). exact H.
Qed.
Lemma is_line : is (fun _ => True) (Reals (N:=RN)).
Proof. eapply is_ext; [|apply is_iv; unfold wf_iv; cbn; auto]. intros x. unfold iv_mem. cbn. tauto. Qed.
Lemma is_point : forall a, is (fun x => x = a) (point a).
Proof.
  intros a. split; [split; [repeat constructor; intros []|discriminate]|split; [exact I|]]. intros v. cbn. split.
  - destruct v as [x|s]; [|tauto]. intros (y & [<-|[]] & K). exists a. split; [now rewrite <- K|reflexivity].
  - intros (x & -> & ->). exists (Fin (a : num RN)). auto.
Qed.
Lemma is_points : forall a b, a < b -> is (fun x => x = a \/ x = b) (points a b).
Proof.
  intros a b L. split; [split; [|discriminate]|split; [exact I|]].
  - cbn. constructor; [intros [K|[]]; injection K; lra|constructor; [intros []|constructor]].
  - intros v. cbn. split.
    + destruct v as [x|s]; [|tauto]. intros (y & [<-|[<-|[]]] & K); [exists a|exists b]; (split; [now rewrite <- K|auto]).
    + intros (x & -> & [->| ->]); [exists (Fin (a : num RN))|exists (Fin (b : num RN))]; auto.
Qed.
Lemma is_btw : forall (a b : R) (st : bool), a < b -> is (fun x => if st then a < x < b else a <= x <= b) (btw a b st).
Proof.
  intros a b st L. eapply is_ext; [|apply is_iv; repeat split; simpl; auto; discriminate]. intros x. unfold iv_mem. cbn -[ele elt]. destruct st; fins; reflexivity.
Qed.
Lemma is_half : forall (up : bool) (c : R) (st : bool), is (fun x => if up then (if st then x < c else x <= c) else (if st then c < x else c <= x)) (half_line (N:=RN) up c st).
Proof.
  intros up c st. unfold half_line. eapply is_ext; [|apply is_iv; destruct up; repeat split; simpl; auto; discriminate]. intros x. unfold iv_mem. destruct up, st; cbn -[ele elt]; fins; cbn; tauto.
Qed.
Lemma is_out : forall (a b : R) (st : bool), a < b \/ a = b /\ st = true -> is (fun x => if st then x < a \/ b < x else x <= a \/ b <= x) (out a b st).
Proof.
  intros a b st H. split; [now apply (outside_ok (N:=RN))|]. split; [repeat constructor|]. intros v. unfold out, outside. cbn [mem]. split.
  - intros (c & [<-|[<-|[]]] & K).
    + apply (proj2 (proj2 (is_half true a st))) in K. destruct K as (x & E & K). exists x. split; [exact E|]. destruct st; tauto.
    + apply (proj2 (proj2 (is_half false b st))) in K. destruct K as (x & E & K). exists x. split; [exact E|]. destruct st; tauto.
  - intros (x & -> & K). assert (D : (if st then x < a else x <= a) \/ (if st then b < x else b <= x)) by (destruct st; tauto). destruct D as [D|D].
    + eexists. split; [left; reflexivity|]. apply (proj2 (proj2 (is_half true a st))). eauto.
    + eexists. split; [right; left; reflexivity|]. apply (proj2 (proj2 (is_half false b st))). eauto.
Qed.

(** the extreme point, the extreme value, and the squared distance of the solutions from it *)
Definition vx (c1 c2 : R) : R := - c1 / (2 * c2).
Definition mx (c0 c1 c2 : R) : R := c0 - c1 * c1 / (4 * c2).
Definition dx (c0 c1 c2 b : R) : R := (b - mx c0 c1 c2) / c2.
Lemma square_form : forall c0 c1 c2 x, c2 <> 0 -> Rpoly (N:=RN) [c0; c1; c2] x = mx c0 c1 c2 + c2 * ((x - vx c1 c2) * (x - vx c1 c2)).
Proof. intros c0 c1 c2 x H. unfold mx, vx. cbn. field. exact H. Qed.

Definition quad_eq (cs : list R) (b : R) : option setR :=
  match cs with
  | [c0; c1] => if Req_EM_T c1 0 then None else Some (point ((b - c0) / c1))
  | [c0; c1; c2] =>
    if Req_EM_T c2 0 then None else
    let v := vx c1 c2 in let d := dx c0 c1 c2 b in
    if Rlt_dec d 0 then Some PEmpty else if Req_EM_T d 0 then Some (point v) else Some (points (v - sqrt d) (v + sqrt d))
  | _ => None
  end.
Definition quad_ineq (cs : list R) (b : R) (st : bool) : option setR :=
  match cs with
  | [c0; c1] => if Req_EM_T c1 0 then None else Some (half_line (N:=RN) (Rltb 0 c1) ((b - c0) / c1) st)
  | [c0; c1; c2] =>
    if Req_EM_T c2 0 then None else
    let v := vx c1 c2 in let d := dx c0 c1 c2 b in
    if Rltb 0 c2 then
      if Rlt_dec d 0 then Some PEmpty else if Req_EM_T d 0 then Some (if st then PEmpty else point v) else Some (btw (v - sqrt d) (v + sqrt d) st)
    else
      if Rlt_dec d 0 then Some Reals else if Req_EM_T d 0 then Some (if st then out v v true else Reals) else Some (out (v - sqrt d) (v + sqrt d) st)
  | _ => None
  end.
Definition quad_range (cs : list R) : option (prange RN) :=
  match cs with
  | [c0; c1] => if Req_EM_T c1 0 then None else Some (PRIv (N:=RN) NInf PInf true true)
  | [c0; c1; c2] =>
    if Req_EM_T c2 0 then None else
    if Rltb 0 c2 then Some (PRIv (N:=RN) (Fin (mx c0 c1 c2 : num RN)) PInf false true) else Some (PRIv (N:=RN) NInf (Fin (mx c0 c1 c2 : num RN)) true false)
  | _ => None
  end.

Lemma root_pos : forall d, 0 < d -> 0 < sqrt d /\ sqrt d * sqrt d = d.
Proof. intros d H. split; [now apply sqrt_lt_R0|apply sqrt_sqrt; lra]. Qed.
Lemma eq_iff : forall c0 c1 c2 b x, c2 <> 0 -> (Rpoly (N:=RN) [c0; c1; c2] x = b <-> (x - vx c1 c2) * (x - vx c1 c2) = dx c0 c1 c2 b).
Proof. intros c0 c1 c2 b x H. rewrite square_form by exact H. unfold dx. split; intros K; [rewrite <- K; field; exact H|rewrite K; field; exact H]. Qed.
Lemma lt_up : forall c0 c1 c2 b x, 0 < c2 -> (Rpoly (N:=RN) [c0; c1; c2] x < b <-> (x - vx c1 c2) * (x - vx c1 c2) < dx c0 c1 c2 b).
Proof.
  intros c0 c1 c2 b x H. rewrite square_form by lra. set (y := (x - vx c1 c2) * (x - vx c1 c2)). assert (E : b - mx c0 c1 c2 = c2 * dx c0 c1 c2 b) by (unfold dx; field; lra). split; intros K.
  - apply (Rmult_lt_reg_l c2); lra.
  - apply (Rmult_lt_compat_l c2) in K; lra.
Qed.
Lemma lt_down : forall c0 c1 c2 b x, c2 < 0 -> (Rpoly (N:=RN) [c0; c1; c2] x < b <-> dx c0 c1 c2 b < (x - vx c1 c2) * (x - vx c1 c2)).
Proof.
  intros c0 c1 c2 b x H. rewrite square_form by lra. set (y := (x - vx c1 c2) * (x - vx c1 c2)). assert (E : b - mx c0 c1 c2 = c2 * dx c0 c1 c2 b) by (unfold dx; field; lra). split; intros K.
  - apply (Rmult_lt_reg_l (- c2)); lra.
  - apply (Rmult_lt_compat_l (- c2)) in K; lra.
Qed.
Lemma sq_lt : forall y s, 0 < s -> (y * y < s * s <-> - s < y < s).
Proof. intros y s H. split; intros K; nra. Qed.
Lemma sq_eq : forall y s, 0 < s -> (y * y = s * s <-> y = - s \/ y = s).
Proof. intros y s H. split; [|intros [->| ->]; ring]. intros K. assert (D : (y - s) * (y + s) = 0) by lra. apply Rmult_integral in D. lra. Qed.
Lemma sq_gt : forall y s, 0 < s -> (s * s < y * y <-> y < - s \/ s < y).
Proof.
  intros y s H. split; intros K.
  - destruct (Rlt_dec y (- s)) as [A|A]; auto. destruct (Rlt_dec s y) as [B|B]; auto. nra.
  - destruct K; nra.
Qed.
Lemma sq_zero : forall y : R, y * y = 0 <-> y = 0.
Proof. intros y. split; [intros H; apply Rmult_integral in H; tauto|intros ->; ring]. Qed.

Lemma quad_eq_ok : forall cs b s, quad_eq cs b = Some s -> is (fun x => Rpoly (N:=RN) cs x = b) s.
Proof.
  intros [|c0 [|c1 [|c2 [|]]]] b s H; try discriminate; unfold quad_eq in H.
  - destruct (Req_EM_T c1 0) as [|Nz]; [discriminate|]. injection H as <-. eapply is_ext; [|apply is_point]. intros x. cbn. split; [intros ->; field; auto|intros <-; field; auto].
  - destruct (Req_EM_T c2 0) as [|Nz]; [discriminate|]. cbv zeta in H. set (v := vx c1 c2) in *. set (d := dx c0 c1 c2 b) in *.
    assert (Q : forall x, Rpoly (N:=RN) [c0; c1; c2] x = b <-> (x - v) * (x - v) = d) by (intros x; now apply eq_iff).
    destruct (Rlt_dec d 0) as [D|D]; [|destruct (Req_EM_T d 0) as [D0|D0]]; injection H as <-.
    + eapply is_ext; [|apply is_empty]. intros x. rewrite Q. split; [tauto|]. intros K. pose proof (Rle_0_sqr (x - v)) as S. unfold Rsqr in S. lra.
    + eapply is_ext; [|apply is_point]. intros x. rewrite Q, D0, sq_zero. lra.
    + destruct (root_pos d ltac:(lra)) as (Sp & Ss). eapply is_ext; [|apply is_points; lra]. intros x. cbv beta. rewrite Q. rewrite <- Ss at 3. rewrite sq_eq by exact Sp. lra.
Qed.
Lemma quad_ineq_ok : forall cs b (st : bool) s, quad_ineq cs b st = Some s -> is (fun x => if st then Rpoly (N:=RN) cs x < b else Rpoly (N:=RN) cs x <= b) s.
Proof.
  intros [|c0 [|c1 [|c2 [|]]]] b st s H; try discriminate; unfold quad_ineq in H.
  - destruct (Req_EM_T c1 0) as [|Nz]; [discriminate|]. injection H as <-. eapply is_ext; [|apply is_half]. intros x. cbv beta. set (c := (b - c0) / c1). assert (E : b = c0 + c1 * c) by (unfold c; field; exact Nz).
    assert (P : Rpoly (N:=RN) [c0; c1] x = c0 + c1 * x) by (cbn; ring). rewrite P, E. destruct (Rltb 0 c1) eqn:U.
    + apply Rltb_ok in U. destruct st; split; intros K; nra.
    + assert (c1 < 0). { destruct (Rlt_dec 0 c1) as [L|L]; [apply Rltb_ok in L; congruence|lra]. } destruct st; split; intros K; nra.
  - destruct (Req_EM_T c2 0) as [|Nz]; [discriminate|]. cbv zeta in H. set (v := vx c1 c2) in *. set (d := dx c0 c1 c2 b) in *.
    assert (Q : forall x, Rpoly (N:=RN) [c0; c1; c2] x = b <-> (x - v) * (x - v) = d) by (intros x; now apply eq_iff).
    assert (S : forall x, 0 <= (x - v) * (x - v)) by (intros x; apply Rle_0_sqr).
    destruct (Rltb 0 c2) eqn:U.
    + apply Rltb_ok in U. assert (L : forall x, Rpoly (N:=RN) [c0; c1; c2] x < b <-> (x - v) * (x - v) < d) by (intros x; now apply lt_up).
      assert (Le : forall x, Rpoly (N:=RN) [c0; c1; c2] x <= b <-> (x - v) * (x - v) <= d) by (intros x; unfold Rle; rewrite L, Q; tauto).
      destruct (Rlt_dec d 0) as [D|D]; [|destruct (Req_EM_T d 0) as [D0|D0]]; injection H as <-.
      * eapply is_ext; [|apply is_empty]. intros x. specialize (S x). destruct st; rewrite ?L, ?Le; lra.
      * destruct st.
        -- eapply is_ext; [|apply is_empty]. intros x. specialize (S x). rewrite L. lra.
        -- eapply is_ext; [|apply is_point]. intros x. specialize (S x). rewrite Le, D0. cbv beta. transitivity ((x - v) * (x - v) = 0); [rewrite sq_zero; lra|lra].
      * destruct (root_pos d ltac:(lra)) as (Sp & Ss). eapply is_ext; [|apply is_btw; lra]. intros x. cbv beta. pose proof (sq_lt (x - v) _ Sp) as K1. pose proof (sq_eq (x - v) _ Sp) as K2. rewrite Ss in K1, K2.
        destruct st; [rewrite L, K1; lra|]. rewrite Le. unfold Rle at 3. rewrite K1, K2. lra.
    + assert (Ng : c2 < 0). { destruct (Rlt_dec 0 c2) as [L|L]; [apply Rltb_ok in L; congruence|lra]. }
      assert (L : forall x, Rpoly (N:=RN) [c0; c1; c2] x < b <-> d < (x - v) * (x - v)) by (intros x; now apply lt_down).
      assert (Le : forall x, Rpoly (N:=RN) [c0; c1; c2] x <= b <-> d <= (x - v) * (x - v)) by (intros x; unfold Rle; rewrite L, Q; intuition).
      destruct (Rlt_dec d 0) as [D|D]; [|destruct (Req_EM_T d 0) as [D0|D0]]; injection H as <-.
      * eapply is_ext; [|apply is_line]. intros x. specialize (S x). destruct st; rewrite ?L, ?Le; lra.
      * destruct st.
        -- eapply is_ext; [|apply is_out; auto]. intros x. specialize (S x). rewrite L, D0. cbv beta iota. pose proof (sq_zero (x - v)). split; [intros K; destruct S as [S|S]; [lra|]; symmetry in S; apply H in S; lra|].
           intros K. destruct (Rtotal_order x v) as [T|[T|T]]; [lra| |lra]. exfalso. subst x. replace (v - v) with 0 in K by ring. lra.
        -- eapply is_ext; [|apply is_line]. intros x. specialize (S x). rewrite Le. lra.
      * destruct (root_pos d ltac:(lra)) as (Sp & Ss). eapply is_ext; [|apply is_out; left; lra]. intros x. cbv beta. pose proof (sq_gt (x - v) _ Sp) as K1. pose proof (sq_eq (x - v) _ Sp) as K2. rewrite Ss in K1, K2.
        destruct st; [rewrite L, K1; lra|]. rewrite Le. unfold Rle at 3. rewrite K1. assert (K3 : d = (x - v) * (x - v) <-> x - v = - sqrt d \/ x - v = sqrt d) by (rewrite <- K2; split; auto). rewrite K3. lra.
Qed.
Lemma quad_range_ok : forall cs r, quad_range cs = Some r -> forall y, prange_mem y r <-> exists x, Rpoly (N:=RN) cs x = y.
Proof.
  intros [|c0 [|c1 [|c2 [|]]]] rr H y; try discriminate; unfold quad_range in H.
  - destruct (Req_EM_T c1 0) as [|Nz]; [discriminate|]. injection H as <-. cbn. split; [|tauto]. intros _. exists ((y - c0) / c1). field. exact Nz.
  - destruct (Req_EM_T c2 0) as [|Nz]; [discriminate|].
    assert (K : 0 <= dx c0 c1 c2 y <-> exists x, Rpoly (N:=RN) [c0; c1; c2] x = y).
    { split.
      - intros D. exists (vx c1 c2 + sqrt (dx c0 c1 c2 y)). apply eq_iff; [exact Nz|]. replace (vx c1 c2 + sqrt (dx c0 c1 c2 y) - vx c1 c2) with (sqrt (dx c0 c1 c2 y)) by ring. now apply sqrt_sqrt.
      - intros (x & E). apply eq_iff in E; [|exact Nz]. rewrite <- E. apply Rle_0_sqr. }
    rewrite <- K. assert (E : y - mx c0 c1 c2 = c2 * dx c0 c1 c2 y) by (unfold dx; field; exact Nz).
    destruct (Rltb 0 c2) eqn:U; injection H as <-; cbn -[ele elt]; rewrite le_fin; cbn.
    + apply Rltb_ok in U. split; [intros (A & _); nra|intros A; split; auto; nra].
    + assert (Ng : c2 < 0). { destruct (Rlt_dec 0 c2) as [L|L]; [apply Rltb_ok in L; congruence|lra]. } split; [intros (_ & A); nra|intros A; split; auto; nra].
Qed.

Definition po_quad : polyoracle RN.
Proof.
  refine {| po_range := quad_range : list (num RN) -> _; po_range_ok := quad_range_ok; po_ineq := quad_ineq : list (num RN) -> num RN -> _; po_ineq_ok := _; po_eq := quad_eq : list (num RN) -> num RN -> _; po_eq_ok := _; po_nroots := fun _ _ => None |}; try discriminate.
  - exact quad_ineq_ok.
  - exact quad_eq_ok.
Defined.

Lemma quad_linear : forall c0 c1 : R, c1 <> 0 -> linear po_quad c0 c1.
Proof.
  intros c0 c1 H. split; [exact H|]. cbn [po_quad po_range po_eq po_ineq quad_range quad_eq quad_ineq]. destruct (Req_EM_T c1 0) as [|Nz]; [contradiction|]. split; [reflexivity|]. intros b. exists ((b - c0) / c1). split; reflexivity.
Qed.
Lemma quad_parabola : forall c0 c1 c2 : R, c2 <> 0 -> parabola po_quad c0 c1 c2.
Proof.
  intros c0 c1 c2 H. exists (mx c0 c1 c2), (vx c1 c2). split; [rewrite square_form by exact H; cbn; ring|].
  cbn [po_quad po_range po_eq po_ineq quad_range quad_eq quad_ineq]. destruct (Req_EM_T c2 0) as [|Nz]; [contradiction|]. cbv zeta.
  assert (Z : forall b : R, b = mx c0 c1 c2 -> dx c0 c1 c2 b = 0) by (intros b ->; unfold dx; field; exact H).
  assert (Zq : forall b : R, b = mx c0 c1 c2 -> forall (A : Type) (p q r : A), (if Rlt_dec (dx c0 c1 c2 b) 0 then p else if Req_EM_T (dx c0 c1 c2 b) 0 then q else r) = q).
  { intros b E A p q r. rewrite (Z b E). destruct (Rlt_dec 0 0); [lra|]. destruct (Req_EM_T 0 0); [reflexivity|contradiction]. }
  assert (Pq : forall b : R, 0 < dx c0 c1 c2 b -> forall (A : Type) (p q r : A), (if Rlt_dec (dx c0 c1 c2 b) 0 then p else if Req_EM_T (dx c0 c1 c2 b) 0 then q else r) = r).
  { intros b E A p q r. destruct (Rlt_dec (dx c0 c1 c2 b) 0); [lra|]. destruct (Req_EM_T (dx c0 c1 c2 b) 0); [lra|reflexivity]. }
  assert (E : forall b, b - mx c0 c1 c2 = c2 * dx c0 c1 c2 b) by (intros b; unfold dx; field; exact Nz).
  split; [intros b Hb; now rewrite (Zq b Hb)|]. change (nltb (n:=RN) (nint (n:=RN) 0) c2) with (Rltb 0 c2).
  destruct (Rltb 0 c2) eqn:U.
  - apply Rltb_ok in U. split; [reflexivity|]. split; [intros b Hb; rewrite !(Zq b Hb); auto|]. intros b Hb. cbn in Hb. specialize (E b). assert (D : 0 < dx c0 c1 c2 b) by nra. destruct (root_pos _ D) as (Sp & _).
    exists (vx c1 c2 - sqrt (dx c0 c1 c2 b)), (vx c1 c2 + sqrt (dx c0 c1 c2 b)). split; [cbn; lra|]. split; [now rewrite (Pq b D)|]. intros st. now rewrite (Pq b D).
  - assert (Ng : c2 < 0). { destruct (Rlt_dec 0 c2) as [L|L]; [apply Rltb_ok in L; congruence|lra]. }
    split; [reflexivity|]. split; [intros b Hb; rewrite !(Zq b Hb); auto|]. intros b Hb. cbn in Hb. specialize (E b). assert (D : 0 < dx c0 c1 c2 b) by nra. destruct (root_pos _ D) as (Sp & _).
    exists (vx c1 c2 - sqrt (dx c0 c1 c2 b)), (vx c1 c2 + sqrt (dx c0 c1 c2 b)). split; [cbn; lra|]. split; [now rewrite (Pq b D)|]. intros st. now rewrite (Pq b D).
Qed.
Lemma real_powers : powers (N:=RN).
Proof. intros b x _. eexists. reflexivity. Qed.
Lemma real_logs : logs (N:=RN).
Proof. intros b y _ _. eexists. reflexivity. Qed.
