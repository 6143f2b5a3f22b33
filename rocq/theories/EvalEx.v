(** A case for the theorems on evaluation, and the cases they leave out. *)
From Coq Require Import List Bool String Reals Lra Lia ZArith QArith Qreals.
From Verif Require Import Base Num Sets SetSpec SetIv SetProofs SetBuilt Poly Trans TransSpec TransFacts InvMain Sample SampleSpec EvalSpec PropEval.
Import ListNotations.
Local Open Scope string_scope.
Local Open Scope list_scope.
Local Open Scope R_scope.

Definition trQ := tr QS.
Definition i29 : interval QS := mkIv (qn 2) (qn 9) true false.
(** (2 < X**2 <= 9) | (Y << {'a'}) *)
Definition e_sq : trQ := EBasic KInt (TPoly (N:=QS) (TId "X") [0%Q; 0%Q; 1%Q]) (PB (BInt i29)).
Definition e_nom : trQ := EBasic KNom (TId "Y") (PB (BNom ["a"] None)).
Definition e_or : trQ := EOr [e_sq; e_nom].
Definition w1 : asg := fun x => if String.eqb x "Y" then FStr "b" else FNum 2.
Definition m1 : sdict := [("X", SNum 2); ("Y", SStr "b")].
Lemma e_or_gev : gev e_or.
Proof.
  split; [|reflexivity]. split; [discriminate|]. cbn. repeat split; auto; try discriminate; try (now exists i29); try (right; exact Logic.I).
  - cbn. unfold Q2R; cbn; lra.
  - repeat constructor; cbn; intuition.
  - left. discriminate.
Qed.
Lemma m1_records : records m1 w1 (symbols e_or).
Proof. intros x [<-|[<-|[]]]; eexists; split; reflexivity. Qed.
Lemma sq_val : teval (TPoly (N:=QS) (TId "X") [0%Q; 0%Q; 1%Q]) w1 = Some (FNum 4).
Proof. cbn. f_equal. f_equal. unfold Q2R; cbn. lra. Qed.
Lemma in_i29 : forall r, 2 < r < 9 -> fm (N:=QS) (FNum r) (PB (BInt i29)).
Proof. intros r (H1 & H2). split; cbn; [|left; cbn]; unfold Q2R; cbn; lra. Qed.
Lemma sq_in : fm (N:=QS) (FNum 4) (PB (BInt i29)).
Proof. apply in_i29. lra. Qed.
Lemma e_sq_one : teval e_sq w1 = one.
Proof. unfold e_sq. change (match teval (TPoly (N:=QS) (TId "X") [0%Q; 0%Q; 1%Q]) w1 with Some (FNum x) => truth (fm (FNum x) (PB (BInt i29))) | _ => None end = one). rewrite sq_val. unfold truth. destruct (dec _) as [|K]; auto. destruct K. exact sq_in. Qed.
Lemma e_nom_zero : teval e_nom w1 = zero.
Proof. cbn. unfold truth. destruct (dec _) as [K|]; auto. cbn in K. destruct K as [K|[]]. discriminate. Qed.
Lemma e_or_defined : defined e_or w1.
Proof. cbn [defined e_or All e_sq e_nom]. fold e_sq e_nom. rewrite e_sq_one, e_nom_zero. repeat split; discriminate. Qed.
Lemma e_or_apt : apt e_or w1.
Proof. cbn [apt e_or e_sq e_nom All]. rewrite sq_val. cbn. repeat split; discriminate. Qed.
Example C50_case : exists v, evaluate e_or m1 = Ok v /\ truthy_v v = true /\ holds e_or w1.
Proof.
  destruct (C50_event e_or m1 w1 e_or_gev) as (b & E & T); [repeat split|exact m1_records|exact e_or_defined|]. exists (truth_v b). split; auto.
  assert (H : holds e_or w1) by (unfold holds, e_or; cbn [teval]; apply kor_one; left; exact e_sq_one). split; auto.
  apply (C50_sound e_or m1 w1); auto; [exact e_or_gev|repeat split|exact m1_records|exact e_or_apt].
Qed.
(** log2(X) > 0 cannot be evaluated: the value of the logarithm is a set *)
Definition e_log : trQ := EBasic KInt (TLog (N:=QS) (TId "X") 2%Q) (PB (BInt i29)).
Definition w8 : asg := fun _ => FNum 8.
Theorem C50_log_refuted : exists (e : trQ) m w, gev e /\ records m w (symbols e) /\ holds e w /\ evaluate e m = Raise TypeError.
Proof.
  exists e_log, [("X", SNum 8)], w8. split; [|split; [|split]].
  - split; [|reflexivity]. cbn. repeat split; auto; try (now exists i29); try discriminate; unfold Q2R; cbn; lra.
  - intros x [<-|[]]. eexists. split; reflexivity.
  - unfold holds, e_log. cbn [teval w8 num_op]. unfold f_log. destruct (Rlt_dec 0 8) as [_|K]; [|lra].
    replace (ln 8 / ln (toR (n:=QS) 2%Q)) with 3.
    + unfold truth. destruct (dec _) as [|K]; auto. destruct K. apply in_i29. lra.
    + replace (toR (n:=QS) 2%Q) with 2 by (cbn; unfold Q2R; cbn; lra). replace 8 with (2 * (2 * 2)) by lra. rewrite !ln_mult by lra. pose proof (ln_increasing 1 2) as K. rewrite ln_1 in K. field. specialize (K ltac:(lra) ltac:(lra)). lra.
  - cbn. unfold nonnegative. destruct (Rlt_dec 8 0); [lra|]. reflexivity.
Qed.
(** a Piecewise transform cannot be evaluated *)
Definition e_piece : trQ := EBasic KInt (TPiece (N:=QS) [(TId "X", EBasic KInt (TId "X") (PB (BInt i29)))]) (PB (BInt i29)).
Theorem C50_piecewise_refuted : exists (e : trQ) m w, gev e /\ records m w (symbols e) /\ holds e w /\ evaluate e m = Raise NotImplementedError.
Proof.
  assert (M : fm (N:=QS) (FNum 8) (PB (BInt i29))) by (apply in_i29; lra).
  exists e_piece, [("X", SNum 8)], w8. split; [|split; [|split; [|reflexivity]]].
  - split; [|reflexivity]. cbn. repeat split; auto; try (now exists i29); try discriminate; try (unfold Q2R; cbn; lra). intros x H. exact H.
  - intros x [<-|[]]. eexists. split; reflexivity.
  - unfold holds, e_piece. cbn [teval map fst snd pick w8]. assert (T : truth (fm (N:=QS) (FNum 8) (PB (BInt i29))) = one) by (unfold truth; destruct (dec _); tauto). rewrite T. destruct (dec (one = one)) as [_|K]; [exact T|tauto].
Qed.
(** ~(X << {'a'}) is True at a number, where the solver says that neither it nor X << {'a'} holds *)
Definition e_not : trQ := EBasic KNom (TId "X") (PB (BNom ["a"] (Some true))).
Theorem C50_sorts_refuted : exists (e : trQ) m w v, gev e /\ smooth e /\ records m w (symbols e) /\ evaluate e m = Ok v /\ truthy_v v = true /\ ~ holds e w.
Proof.
  exists e_not, [("X", SNum 8)], w8, (SNum 1). split; [|split; [|split; [|split; [|split]]]].
  - split; [|reflexivity]. cbn. repeat split; auto. repeat constructor; cbn; intuition.
  - exact Logic.I.
  - intros x [<-|[]]. eexists. split; reflexivity.
  - reflexivity.
  - cbn. unfold nonzero. destruct (Req_EM_T 1 0); auto; lra.
  - discriminate.
Qed.
Definition all_eval_properties := (@C50_value, @C50_value_sound, @C50_event, @C50_holds, @C50_returns_defined, @C50_sound, C50_case, C50_log_refuted, C50_piecewise_refuted, C50_sorts_refuted).
Print Assumptions all_eval_properties.
