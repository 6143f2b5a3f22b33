(** C53: cases, and programs that preprocess damages. *)
From Coq Require Import List Bool Ascii String Arith Lia.
From Verif Require Import Pre PreSpec PropPre.
Import ListNotations.
Local Open Scope list_scope.

Fixpoint prefixb (w t : text) : bool :=
  match w, t with [], _ => true | c :: w, d :: t => Ascii.eqb c d && prefixb w t | _, [] => false end.
Fixpoint containsb (t w : text) : bool :=
  prefixb w t || match t with [] => false | _ :: t => containsb t w end.
Lemma contains_dec t w : containsb t w = false -> ~ contains t w.
Proof.
  assert (P : forall w r, prefixb w (w ++ r) = true).
  { induction w0 as [|c w0 IH]; intros r; [destruct r; reflexivity|]. cbn. rewrite Ascii.eqb_refl. apply IH. }
  intros H (a & b & ->). induction a as [|c a IH].
  - cbn [app] in H. destruct (w ++ b) eqn:E; cbn [containsb] in H; rewrite <- E, P in H; discriminate.
  - apply IH. cbn [app containsb] in H. apply orb_false_elim in H as [_ H]. exact H.
Qed.
Lemma spaces_dec t : forallb is_space t = true -> space t.
Proof. intros H c I. rewrite forallb_forall in H. auto. Qed.
Lemma one_line_dec t : containsb t [newline] = false -> one_line t.
Proof. intros H I. apply contains_dec in H. apply H. apply in_split in I as (a & b & ->). exists a, b. reflexivity. Qed.
Lemma not_space_dec t : nonblank t = true -> ~ space t.
Proof. apply nonblank_true. Qed.
(** the first character that is not a space *)
Lemma no_start i c r d W : space i -> is_space c = false -> is_space d = false -> c <> d -> ~ starts (i ++ c :: r) (d :: W).
Proof. intros I C D N (i' & r' & I' & E). apply lead_eq in E as (_ & E & _); auto. Qed.
Lemma begins_dec i c r : space i -> is_space c = false -> ~ In c (txt "):ic") -> begins (i ++ c :: r).
Proof.
  intros I C N. cbn in N.
  repeat split; apply no_start; auto; intros ->; tauto.
Qed.
Lemma no_switch i c r : space i -> is_space c = false -> c <> "s"%char -> ~ switches (i ++ c :: r).
Proof. intros I C N (i' & w & r' & I' & W & E & _). apply lead_eq in E as (_ & E & _); auto. Qed.

Example C53_preprocess_case :
  program [txt "X = array(2)"; txt "  "; txt "Y ~= norm()"; txt "switch (Y) cases (y in [0, 1]): "; txt "    X[y] ~= norm(loc=2*y)"]
    [txt "X = array(2)"; txt "Y = norm()"; txt "for y  in switch(Y, [0, 1]): "; txt "    X[y] = norm(loc=2*y)"].
Proof.
  apply (P_line _ (txt "X = array(2)")); [apply one_line_dec; reflexivity|apply not_space_dec; reflexivity|apply PT_end, contains_dec; reflexivity
    |apply (begins_dec []); [intros ? []|reflexivity|cbn; intuition discriminate]
    |apply R_plain, (no_switch []); [intros ? []|reflexivity|discriminate]|].
  apply P_blank; [apply one_line_dec; reflexivity|apply spaces_dec; reflexivity|].
  apply (P_line _ (txt "Y = norm()")); [apply one_line_dec; reflexivity|apply not_space_dec; reflexivity
    |apply (PT_more (txt "Y ") (txt " norm()")); [apply contains_dec; reflexivity|apply PT_end, contains_dec; reflexivity]
    |apply (begins_dec []); [intros ? []|reflexivity|cbn; intuition discriminate]
    |apply R_plain, (no_switch []); [intros ? []|reflexivity|discriminate]|].
  apply (P_line _ (txt "switch (Y) cases (y in [0, 1]): ")); [apply one_line_dec; reflexivity|apply not_space_dec; reflexivity
    |apply PT_end, contains_dec; reflexivity
    |apply (begins_dec []); [intros ? []|reflexivity|cbn; intuition discriminate]| |].
  { apply (R_switch [] (txt " ") (txt "Y") (txt " ") (txt " ") (txt "y ") (txt " ") (txt "[0, 1]") [] (txt " "));
      try (apply spaces_dec; reflexivity); try discriminate.
    - exists "["%char, (txt "0, 1]"). split; reflexivity.
    - apply contains_dec. reflexivity.
    - intros (a & b & E & _). apply (contains_dec (txt "[0, 1]): ") (txt "in")); [reflexivity|exists a, b; exact E].
    - intros (a & w & b & _ & E). apply (contains_dec (txt " ") (txt ")")); [reflexivity|]. eexists; eexists; exact E. }
  apply (P_line _ (txt "    X[y] = norm(loc=2*y)")); [apply one_line_dec; reflexivity|apply not_space_dec; reflexivity
    |apply (PT_more (txt "    X[y] ") (txt " norm(loc=2*y)")); [apply contains_dec; reflexivity|apply PT_end, contains_dec; reflexivity]
    |apply (begins_dec (txt "    ") "X"%char); [apply spaces_dec; reflexivity|reflexivity|cbn; intuition discriminate]
    |apply R_plain, (no_switch (txt "    ") "X"%char); [apply spaces_dec; reflexivity|reflexivity|discriminate]|].
  apply P_end.
Qed.
(** the text t is written in the line l *)
Definition quoted (l t : text) : Prop := contains l (txt "'" ++ t ++ txt "'").
(** ~= inside a text is replaced too: the outcome 'a~=b' becomes 'a=b'. *)
Theorem C53_quoted_refuted : exists l t, quoted l t /\ ~ contains t (txt "'") /\ ~ quoted (preprocess l) t.
Proof.
  exists (txt "X ~= choice({'a~=b': 1})"), (txt "a~=b"). split; [|split].
  - exists (txt "X ~= choice({"), (txt ": 1})"). reflexivity.
  - apply contains_dec. reflexivity.
  - apply contains_dec. reflexivity.
Qed.
(** The brackets of a text match. *)
Fixpoint nested (open : text) (t : text) : bool :=
  match t with
  | [] => match open with [] => true | _ => false end
  | c :: t =>
    if Ascii.eqb c "(" then nested (")"%char :: open) t
    else if Ascii.eqb c "[" then nested ("]"%char :: open) t
    else if Ascii.eqb c ")" || Ascii.eqb c "]" then match open with d :: open => Ascii.eqb c d && nested open t | [] => false end
    else nested open t
  end.
(** The last in of the line is taken for that of cases, also if it is part of a value. *)
Theorem C53_comprehension_refuted : exists y e vs, nested [] e = true /\ nested [] vs = true /\
  nested [] (preprocess (txt "switch (" ++ e ++ txt ") cases (" ++ y ++ txt " in " ++ vs ++ txt "): X ~= norm(loc=1)")) = false.
Proof. exists (txt "y"), (txt "Y"), (txt "[n for n in range(3)]"). repeat split; reflexivity. Qed.
(** So is the end of another name. *)
Theorem C53_name_refuted : exists y e vs, nested [] e = true /\ nested [] vs = true /\ ~ contains vs (txt " in ") /\
  nested [] (preprocess (txt "switch (" ++ e ++ txt ") cases (" ++ y ++ txt " in " ++ vs ++ txt "): X ~= norm(loc=1)")) = false.
Proof.
  exists (txt "y"), (txt "Y"), (txt "[begin if low else 0, 1]"). split; [reflexivity|split; [reflexivity|split; [|reflexivity]]].
  apply contains_dec. reflexivity.
Qed.
(** A colon after a bracket in the body is taken for that of the head, but the text is the same. *)
Example C53_colon_case :
  preprocess (txt "switch (Y) cases (y in [0, 1]): X ~= choice({str(y): 1})") = txt "for y  in switch(Y, [0, 1]): X = choice({str(y): 1})".
Proof. reflexivity. Qed.

Definition all_preprocess_properties := (@C53_preprocess_partial, @C53_quoted_refuted, @C53_comprehension_refuted, @C53_name_refuted).
Print Assumptions all_preprocess_properties.
