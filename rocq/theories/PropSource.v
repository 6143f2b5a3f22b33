(** Properties C42, C43 and C47: the translation of source programs. *)
From Coq Require Import List Bool String Reals Lra Lia ZArith FunctionalExtensionality Classical.
From Verif Require Import Base Num Sets SetSpec Poly Trans TransSpec Dnf DnfSpec Logs Spe SpeSpec SpeFacts SpeRect SpeEq PropSpe SpeOps MemoProofs CondProofs Prog ProgSpec ProgProofs PropProg
  Source SourceSpec SourceExpr SourceKernel SourceVisit SourceProofs SourceNames.
Import ListNotations.
Local Open Scope R_scope.

(** ** C42: branches *)
Section Branches.
  Context {N : numsys}.
  Notation expr := (expr N).
  Notation stmt := (stmt N).
  (** the truth values of the tests *)
  Context (tv : expr -> bool).
  (** the statements that Python runs, in order, for an if; other statements stand for themselves *)
  Fixpoint exec (s : stmt) : list stmt :=
    match s with
    | SIf c b o => if tv c then flat_map exec b else flat_map exec o
    | _ => [s]
    end.
  (** the value of a conditional expression *)
  Fixpoint select (v : expr) : expr :=
    match v with XIf c a b => if tv c then a else select b | _ => v end.
  (** the first branch of a list whose test is true *)
  Fixpoint taken (l : list (expr * list stmt)) : list stmt :=
    match l with [] => [] | (c, b) :: l => if tv c then b else taken l end.

  Context (Ht : tv (XBool true) = true).
  Theorem C42_unroll_if : forall c b o, flat_map exec (taken (unroll_if (SIf c b o))) = exec (SIf c b o).
  Proof.
    intros c b o. enough (H : forall s : stmt, is_SIf s -> flat_map exec (taken (unroll_if s)) = exec s) by (apply H; exact I). clear c b o.
    induction s as [s Hs|c b|c b s IHs|c b s s' o] using if_ind; intros Is; [contradiction| | |]; cbn [unroll_if taken exec]; destruct (tv c); auto.
    - assert (K : is_SIf s \/ match s with SIf _ _ _ => unroll_if s | _ => [(XBool true, [s])] end = [(XBool true, [s])]) by (destruct s; auto; left; exact I).
      destruct K as [K|K]; [|rewrite K; cbn [taken]; now rewrite Ht]. cbn [flat_map]. rewrite app_nil_r. rewrite <- IHs by exact K. destruct s; try contradiction. reflexivity.
    - cbn [taken]. now rewrite Ht.
  Qed.
  Theorem C42_unroll_ifexp : forall t v, exec (unroll_ifexp [t] v) = [SAssign [t] (select v)].
  Proof.
    intros t. induction v; try reflexivity. cbn [unroll_ifexp]. rewrite <- unroll_case. cbn [exec select flat_map]. rewrite IHv3. destruct (tv v1); reflexivity.
  Qed.
End Branches.

Section Properties.
  Context {N : numsys} {S : logsys} {D : distsys N S} (io : iterorder N) (so : strorder) (po : polyoracle N) (fuel : nat).
  Context (dlaw : dist D -> (fval -> R) -> R) (Ed : eq_dist dlaw).
  Context (hash : spe D -> Z) (ids : spe D -> spe D -> nat) (no_simplify : bool) (nominal : string -> bool).
  Notation expr := (expr N).
  Notation stmt := (stmt N).
  Notation env := (env (N:=N)).
  Notation pyval := (pyval (N:=N)).
  Notation command := (command (N:=N) (D:=D)).
  Context (call : string -> list pyval -> list (string * pyval) -> res pyval).
  Context (deval : env -> expr -> res (distribution (N:=N) (D:=D))) (aeval : env -> expr -> res (assignment (N:=N))).
  Context (isdist : string -> bool) (unparse : expr -> expr -> string).
  Notation peval := (peval io po fuel call).
  Notation seval := (seval peval).
  Notation translate := (translate isdist unparse).
  Notation the_command := (the_command io po fuel call deval aeval).
  Notation source_meaning := (source_meaning peval isdist deval dlaw).
  Notation sane_program := (sane_program peval isdist deval dlaw).
  Notation interpret := (interpret io so po fuel hash ids no_simplify).
  Notation meaning := (meaning dlaw).

  (** ** C43: conditions *)
  (** The Python value of a rewritten condition is a truth value, or an event that holds exactly
      where the condition, read on the values of the variables, is true. *)
  Theorem C43_condition : forall g e v w o, cond peval g e -> peval g (rewrite e) = Ok v -> seval g e w = Some o ->
    exists b, o = SB b /\ (v = PBool b \/ exists ev, v = PTr ev /\ gev ev /\ (holds ev w <-> b = true)).
  Proof.
    intros g e v w o C H E. destruct (cond_ok io po fuel call g e v w o C H E) as (b & -> & F). exists b. split; auto. destruct F as [->|(ev & -> & G & Ho & _)]; eauto.
  Qed.
  (** the four comparisons that are rewritten *)
  Corollary C43_in : forall g a b ev w o, cond peval g (XCmp a [(CIn, b)]) -> peval g (XBin BShift a b) = Ok (PTr ev) -> seval g (XCmp a [(CIn, b)]) w = Some o -> (holds ev w <-> o = SB true).
  Proof. intros g a b ev w o C H E. destruct (C43_condition g _ (PTr ev) w o C H E) as (c & -> & [K|(ev' & [= <-] & _ & Ho)]); [discriminate|]. rewrite Ho. split; [now intros ->|now intros [= ->]]. Qed.
  Corollary C43_not_in : forall g a b ev w o, cond peval g (XCmp a [(CNotIn, b)]) -> peval g (XUn UInv (XBin BShift a b)) = Ok (PTr ev) -> seval g (XCmp a [(CNotIn, b)]) w = Some o -> (holds ev w <-> o = SB true).
  Proof. intros g a b ev w o C H E. destruct (C43_condition g _ (PTr ev) w o C H E) as (c & -> & [K|(ev' & [= <-] & _ & Ho)]); [discriminate|]. rewrite Ho. split; [now intros ->|now intros [= ->]]. Qed.
  Corollary C43_eq : forall g a b ev w o, cond peval g (XCmp a [(CEq, b)]) -> peval g (XBin BShift a (XSet [b])) = Ok (PTr ev) -> seval g (XCmp a [(CEq, b)]) w = Some o -> (holds ev w <-> o = SB true).
  Proof. intros g a b ev w o C H E. destruct (C43_condition g _ (PTr ev) w o C H E) as (c & -> & [K|(ev' & [= <-] & _ & Ho)]); [discriminate|]. rewrite Ho. split; [now intros ->|now intros [= ->]]. Qed.
  Corollary C43_ne : forall g a b ev w o, cond peval g (XCmp a [(CNe, b)]) -> peval g (XUn UInv (XBin BShift a (XSet [b]))) = Ok (PTr ev) -> seval g (XCmp a [(CNe, b)]) w = Some o -> (holds ev w <-> o = SB true).
  Proof. intros g a b ev w o C H E. destruct (C43_condition g _ (PTr ev) w o C H E) as (c & -> & [K|(ev' & [= <-] & _ & Ho)]); [discriminate|]. rewrite Ho. split; [now intros ->|now intros [= ->]]. Qed.

  (** ** C47: programs *)
  (** the command that a program is translated to has the meaning of the program *)
  Theorem C47_translation : forall n p st is g c, translate n p = Ok (st, is) -> the_command g is = Ok c -> (forall w, able w dlaw c start) -> All solid p -> sane_program g p ->
    forall f w, bnd f -> meaning c start f w = source_meaning g p start f w.
  Proof.
    intros n p st is g c H Hc A So Sa f w Hf. unfold Source.translate, block in H. inv_bind H. destruct r as (st1, i). injection H as <- <-. cbn [vs_first vs_init] in Hc. rewrite orb_true_r in Hc.
    cbn [Source.the_command Source.command_of] in Hc. inv_bind Hc. injection Hc as <-. specialize (A w). specialize (Sa w).
    exact (each_means io po fuel dlaw call deval aeval isdist w (visit isdist unparse n) p (vs_with_first false vs_init) st1 i r g start start (visit_step isdist unparse n)
      (visit_means io po fuel dlaw call deval aeval isdist unparse w n) E eq_refl E0 A (fun f _ => eq_refl) (start_meas w) So Sa f Hf).
  Qed.
  (** the names that the command is evaluated with: the constants have the values that Python gives
      them one after the other, the other names are the variables and the arrays of variables *)
  Theorem C47_names : forall n p st is g, translate n p = Ok (st, is) -> module_env io po fuel call st = Ok g -> NoDup (map (text unparse) (fixed isdist (fun _ => false) p)) ->
    let k := fold_left (grow isdist) p (fun _ => false) in
    exists g0, named peval isdist (fun _ => false) p [] = Ok g0 /\
      (forall x, k x = false -> lookup g x = lookup g0 x) /\
      (forall x, k x = true -> (forall m s, In s p -> ~ array_decl x m s) -> lookup g x = Ok (PTr (TId x))) /\
      (forall x m s, In s p -> array_decl x m s -> exists g1 v z, peval g1 m = Ok v /\ int_or TypeError v = Ok z /\ lookup g x = Ok (IdArray x z) /\ forall y, k y = false -> lookup g1 y = lookup g0 y).
  Proof. exact (names_ok isdist unparse io po fuel call). Qed.
  Context (Hid : forall s, distinct (ids s) s).
  Context (Hh : no_simplify = true \/ forall a b, is_leaf a = true -> is_leaf b = true -> hash a = hash b -> speqb (D:=D) a b = true).
  (** and the expression that the translated program returns has that distribution *)
  Theorem C47_program : forall n p st is g c W s, translate n p = Ok (st, is) -> the_command g is = Ok c -> fits dlaw nominal c (fun _ => False) start W -> interpret c None = Ok (Some s) ->
    All solid p -> sane_program g p ->
    wf_spe dlaw s /\ (forall x, vars s x <-> W x) /\ forall f w, simple f -> den dlaw s f w = source_meaning g p start f w.
  Proof.
    intros n p st is g c W s H Hc F Hi So Sa. destruct (C35_program io so po fuel dlaw Ed hash ids no_simplify nominal Hid Hh c W s F Hi) as (A1 & A2 & A3). split; auto. split; auto.
    intros f w Hf. rewrite A3 by auto. apply (C47_translation n p st is g c); auto; [intros v; exact (fits_able v dlaw nominal c _ _ W F)|now apply simple_bnd].
  Qed.
End Properties.

(** ** C47: arrays *)
Section Arrays.
  Context {N : numsys}.
  Lemma nint_floor : forall z, to_int (N:=N) (nint z) = Some z.
  Proof.
    intros z. unfold to_int. assert (E : nfloor (nint (n:=N) z) = z).
    { destruct (nfloor_ok N (nint z)) as (A & B). rewrite nint_ok in A, B. apply le_IZR in A. rewrite <- plus_IZR in B. apply lt_IZR in B. lia. }
    rewrite E. assert (K : neqb (nint (n:=N) z) (nint z) = true) by (now apply neqb_ok). now rewrite K.
  Qed.
  (** a[k] is the element at k counted from the front, a[-k] the one at k counted from the end,
      and there are no others *)
  Theorem C47_index : forall l : list (pyval (N:=N)),
    (forall k v, nth_error l k = Some v -> py_item (PColl l) (PNum (nint (Z.of_nat k))) = Ok v) /\
    (forall k v, nth_error (rev l) k = Some v -> py_item (PColl l) (PNum (nint (- Z.of_nat (1 + k)))) = Ok v) /\
    (forall z, (z < - Z.of_nat (List.length l) \/ Z.of_nat (List.length l) <= z)%Z -> py_item (PColl l) (PNum (nint z)) = Raise IndexError).
  Proof.
    intros l. unfold py_item, int_or. split; [|split].
    - intros k v H. rewrite nint_floor. cbn [bind]. replace (Z.of_nat k <? 0)%Z with false by (symmetry; apply Z.ltb_ge; lia). cbv beta iota zeta. replace (Z.of_nat k <? 0)%Z with false by (symmetry; apply Z.ltb_ge; lia). now rewrite Nat2Z.id, H.
    - intros k v H. rewrite nint_floor. cbn [bind]. assert (L : (k < List.length l)%nat) by (rewrite <- rev_length; apply nth_error_Some; congruence).
      replace (- Z.of_nat (1 + k) <? 0)%Z with true by (symmetry; apply Z.ltb_lt; lia). cbv beta iota zeta. replace (- Z.of_nat (1 + k) + Z.of_nat (List.length l) <? 0)%Z with false by (symmetry; apply Z.ltb_ge; lia).
      replace (Z.to_nat (- Z.of_nat (1 + k) + Z.of_nat (List.length l))) with (List.length l - Datatypes.S k)%nat by lia.
      apply nth_error_nth with (d := v) in H. rewrite rev_nth in H by auto. rewrite (nth_error_nth' l v) by lia. now rewrite H.
    - intros z H. rewrite nint_floor. cbn [bind]. destruct (Z.ltb_spec z 0) as [Lz|Lz].
      + replace (z + Z.of_nat (List.length l) <? 0)%Z with true by (symmetry; apply Z.ltb_lt; lia). reflexivity.
      + replace (z <? 0)%Z with false by (symmetry; apply Z.ltb_ge; lia). replace (nth_error l (Z.to_nat z)) with (@None (pyval (N:=N))); auto. symmetry. apply nth_error_None. lia.
  Qed.
End Arrays.
