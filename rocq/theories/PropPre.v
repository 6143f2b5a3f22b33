(** C53: preprocess turns the lines of a program into lines of Python. *)
From Coq Require Import List Bool Ascii String Arith Lia.
From Verif Require Import Pre PreSpec.
Import ListNotations.
Local Open Scope list_scope.

(** ** Lists *)
Lemma split_app {A} (x1 x2 y1 y2 : list A) : x1 ++ x2 = y1 ++ y2 ->
  (exists l, x1 = y1 ++ l /\ y2 = l ++ x2) \/ (exists l, y1 = x1 ++ l /\ x2 = l ++ y2).
Proof.
  revert y1. induction x1 as [|a x1 IH]; intros y1 H.
  - right. exists y1. auto.
  - destruct y1 as [|b y1]; [left; exists (a :: x1); auto|].
    injection H as -> H. destruct (IH _ H) as [(l & -> & ->)|(l & -> & ->)]; [left|right]; exists l; auto.
Qed.
Lemma skip_char (c : ascii) a x u y : ~ In c a -> a ++ x = u ++ c :: y -> exists u2, u = a ++ u2 /\ x = u2 ++ c :: y.
Proof.
  intros Nin H. destruct (split_app _ _ _ _ H) as [(l & -> & E)|(l & -> & ->)]; [|eauto].
  destruct l as [|d l]; [exists []; rewrite !app_nil_r; auto|].
  injection E as <- _. destruct Nin. apply in_or_app. right. left. reflexivity.
Qed.
Definition stop (k : text) : Prop := k = [] \/ exists k', k = newline :: k'.
Lemma prefix_line t k w r : one_line w -> stop k -> t ++ k = w ++ r -> exists t2, t = w ++ t2 /\ r = t2 ++ k.
Proof.
  intros W K H. destruct (split_app _ _ _ _ H) as [(l & -> & ->)|(l & -> & E)]; [eauto|].
  destruct l as [|c l]; [exists []; rewrite !app_nil_r; auto|].
  destruct K as [->|(k' & ->)]; [discriminate|]. injection E as <- _.
  destruct W. apply in_or_app. right. left. reflexivity.
Qed.

(** ** What a match consumes *)
Fixpoint consumes (r : list pat) (s rest : text) : Prop :=
  match r with
  | [] => s = rest
  | Chr c :: r => exists s', s = c :: s' /\ consumes r s' rest
  | Many p _ n :: r => exists t s', s = t ++ s' /\ (forall c, In c t -> p c = true) /\ n <= List.length t /\ consumes r s' rest
  end.
Lemma greedy_sound p g n k (P : text -> text -> Prop) : (forall s cs rest, k s = Some (cs, rest) -> P s rest) ->
  forall s acc cs rest, (forall c, In c acc -> p c = true) -> greedy p g n k acc s = Some (cs, rest) ->
  exists t s', s = t ++ s' /\ (forall c, In c t -> p c = true) /\ n <= List.length acc + List.length t /\ P s' rest.
Proof.
  intros Hk.
  assert (St : forall s acc cs rest, (if Nat.leb n (List.length acc) then with_group g (rev acc) (k s) else None) = Some (cs, rest) ->
    exists t s', s = t ++ s' /\ (forall c, In c t -> p c = true) /\ n <= List.length acc + List.length t /\ P s' rest).
  { intros s acc cs rest H. destruct (Nat.leb n (List.length acc)) eqn:L; [|discriminate]. apply Nat.leb_le in L.
    destruct (k s) as [[cs' r']|] eqn:E; [|discriminate]. cbn in H. injection H as _ <-.
    exists [], s. cbn. repeat split; [easy|lia|eauto]. }
  induction s as [|c s IH]; intros acc cs rest Ha H; cbn [greedy] in H.
  - eapply St, H.
  - destruct (p c) eqn:Pc; [|eapply St, H].
    destruct (greedy p g n k (c :: acc) s) as [[cs' r']|] eqn:E; [|eapply St, H].
    injection H as <- <-. destruct (IH (c :: acc) cs' r') as (t & s' & -> & Ht & L & Hr); [|exact E|].
    { intros d [<-|I]; auto. }
    exists (c :: t), s'. repeat split; auto; [intros d [<-|I]; auto|cbn in *; lia].
Qed.
Lemma matches_sound r : forall s cs rest, matches r s = Some (cs, rest) -> consumes r s rest.
Proof.
  induction r as [|[c|p g n] r IH]; intros s cs rest H; cbn in H.
  - injection H as _ <-. reflexivity.
  - destruct s as [|d s]; [discriminate|]. destruct (Ascii.eqb c d) eqn:E; [|discriminate]. apply Ascii.eqb_eq in E as <-.
    exists s. eauto.
  - apply (greedy_sound p g n (matches r) (consumes r)) in H; [|exact IH|easy]. exact H.
Qed.

(** ** The longest repetition *)
Lemma greedy_stop p g n k acc s cs rest : n <= List.length acc -> k s = Some (cs, rest) ->
  (forall u s', u <> [] -> s = u ++ s' -> (forall c, In c u -> p c = true) -> k s' = None) ->
  greedy p g n k acc s = Some (if g then rev acc :: cs else cs, rest).
Proof.
  intros L Hk Hno.
  assert (No : forall s acc, (forall u s', s = u ++ s' -> (forall c, In c u -> p c = true) -> k s' = None) -> greedy p g n k acc s = None).
  { clear. induction s as [|c s IH]; intros acc Hno; cbn [greedy].
    - rewrite (Hno [] []); [|reflexivity|easy]. destruct (Nat.leb n (List.length acc)); reflexivity.
    - pose proof (Hno [] (c :: s) eq_refl ltac:(easy)) as E. rewrite E.
      destruct (p c) eqn:Pc; [|destruct (Nat.leb n (List.length acc)); reflexivity].
      rewrite IH; [destruct (Nat.leb n (List.length acc)); reflexivity|].
      intros u s' -> Hu. apply (Hno (c :: u) s'); [reflexivity|]. intros d [<-|I]; auto. }
  apply Nat.leb_le in L. destruct s as [|c s]; cbn [greedy]; rewrite L, Hk; [destruct g; reflexivity|].
  destruct (p c) eqn:Pc; [|destruct g; reflexivity].
  rewrite No; [destruct g; reflexivity|]. intros u s' -> Hu. apply (Hno (c :: u) s'); [discriminate|reflexivity|].
  intros d [<-|I]; auto.
Qed.
Lemma greedy_longest p g n k t s cs rest : (forall c, In c t -> p c = true) -> k s = Some (cs, rest) ->
  (forall u s', u <> [] -> s = u ++ s' -> (forall c, In c u -> p c = true) -> k s' = None) ->
  forall acc, n <= List.length acc + List.length t -> greedy p g n k acc (t ++ s) = Some (if g then (rev acc ++ t) :: cs else cs, rest).
Proof.
  intros Ht Hk Hno. induction t as [|c t IH]; intros acc L.
  - cbn [app]. rewrite app_nil_r. apply (greedy_stop p g n k acc s cs rest); auto. cbn in L; lia.
  - cbn [greedy app]. rewrite (Ht c) by (left; reflexivity).
    rewrite (IH ltac:(intros d I; apply Ht; right; exact I) (c :: acc)) by (cbn in *; lia).
    cbn [rev]. rewrite <- app_assoc. reflexivity.
Qed.
Lemma m_spaces g n r w c s cs rest : space w -> is_space c = false -> n <= List.length w ->
  matches r (c :: s) = Some (cs, rest) -> matches (Many is_space g n :: r) (w ++ c :: s) = Some (if g then w :: cs else cs, rest).
Proof.
  intros W C L H. cbn [matches]. apply (greedy_longest is_space g n (matches r) w (c :: s) cs rest W H); [|cbn; lia].
  intros [|d u] s' Ne E Hu; [easy|]. injection E as <- _. rewrite (Hu c) in C by (left; reflexivity). discriminate.
Qed.
Lemma dots t : (forall c, In c t -> is_dot c = true) <-> one_line t.
Proof.
  unfold is_dot, one_line. split.
  - intros H I. specialize (H _ I). rewrite Ascii.eqb_refl in H. discriminate.
  - intros H c I. destruct (Ascii.eqb c newline) eqn:E; [|reflexivity]. apply Ascii.eqb_eq in E as ->. easy.
Qed.
Lemma m_dots r t s cs rest : one_line t -> t <> [] -> matches r s = Some (cs, rest) ->
  (forall u s', u <> [] -> one_line u -> s = u ++ s' -> forall rest', consumes r s' rest' -> False) ->
  matches (Many is_dot true 1 :: r) (t ++ s) = Some (t :: cs, rest).
Proof.
  intros T Ne H Hno. cbn [matches]. pose proof (proj2 (dots t) T) as T'. clear T. rename T' into T.
  apply (greedy_longest is_dot true 1 (matches r) t s cs rest T H).
  - intros u s' Nu E Hu. destruct (matches r s') as [[cs' r']|] eqn:M; [|reflexivity].
    exfalso. apply (Hno u s' Nu (proj1 (dots u) Hu) E r'). eapply matches_sound, M.
  - destruct t; [easy|cbn; lia].
Qed.
Lemma m_word w r s : matches (map Chr w ++ r) (w ++ s) = matches r s.
Proof. induction w as [|c w IH]; cbn; [reflexivity|]. rewrite Ascii.eqb_refl. exact IH. Qed.
Lemma c_word w r s rest : consumes (map Chr w ++ r) s rest <-> exists s', s = w ++ s' /\ consumes r s' rest.
Proof.
  revert s. induction w as [|c w IH]; intros s; cbn.
  - split; [eauto|intros (s' & -> & H); exact H].
  - split.
    + intros (s1 & -> & H). apply IH in H as (s' & -> & H). exists s'. auto.
    + intros (s' & -> & H). eexists. split; [reflexivity|]. apply IH. eauto.
Qed.
Lemma c_spaces g n r s rest : consumes (Many is_space g n :: r) s rest -> exists w s', s = w ++ s' /\ space w /\ n <= List.length w /\ consumes r s' rest.
Proof. intros (t & s' & H). exists t, s'. exact H. Qed.

(** ** The head of a switch *)
(** what may follow a line *)
Definition after (k : text) : Prop :=
  stop k /\ forall W w b, In W [txt ")"; txt ":"; txt "in"; txt "cases"] -> space w -> k <> w ++ W ++ b.
Lemma not_space_in c w : space w -> is_space c = false -> ~ In c w.
Proof. intros W C I. rewrite (W _ I) in C. discriminate. Qed.
Lemma space_app a b : space (a ++ b) <-> space a /\ space b.
Proof. unfold space. split; [intros H; split; intros c I; apply H, in_or_app; auto|intros [A B] c I; apply in_app_or in I as [I|I]; auto]. Qed.
Lemma one_line_app a b : one_line (a ++ b) <-> one_line a /\ one_line b.
Proof.
  unfold one_line. split; [intros H; split; intros I; apply H, in_or_app; auto|].
  intros [A B] I. apply in_app_or in I as [I|I]; auto.
Qed.
Ltac literal := unfold one_line; cbn; let J := fresh in intros J; repeat (destruct J as [J|J]; [discriminate J|]); exact J.

Definition p7 := spaces :: word ")" ++ spaces :: word ":".
Definition p6 := spaces :: word "in" ++ Many is_space false 1 :: Many is_dot true 1 :: p7.
Definition p5 := word ")" ++ spaces :: word "cases" ++ spaces :: word "(" ++ Many is_dot true 1 :: p6.
Lemma pattern_eq : switch_pattern = Many is_space true 0 :: word "switch" ++ spaces :: word "(" ++ Many is_dot true 1 :: p5.
Proof. reflexivity. Qed.

(** what is left of spaces that go beyond the line *)
Lemma spaces_beyond u w A l k b : one_line u -> space w -> stop k -> k = l ++ b -> u ++ w = A ++ l -> space l.
Proof.
  intros U W K E H. destruct (split_app _ _ _ _ H) as [(m & -> & ->)|(m & -> & ->)].
  - destruct m as [|c m]; [exact W|]. apply one_line_app in U as [_ U].
    destruct K as [->|(k' & ->)]; [discriminate|]. injection E as <- _. destruct U. left. reflexivity.
  - apply space_app in W as [_ W]. exact W.
Qed.
Lemma no_more_cases w2 w3 T k : space w2 -> space w3 -> ~ contains T (txt "cases") -> after k ->
  forall u s', u <> [] -> one_line u -> txt ")" ++ w2 ++ txt "cases" ++ w3 ++ txt "(" ++ T ++ k = u ++ s' -> forall rest', consumes p5 s' rest' -> False.
Proof.
  intros W2 W3 NC [St Af] u s' Nu U E rest' C. unfold p5 in C.
  apply c_word in C as (s1 & -> & C). apply c_spaces in C as (w & s2 & -> & W & _ & C).
  apply c_word in C as (s3 & -> & _).
  destruct u as [|c u]; [easy|]. cbn in E. injection E as <- E.
  assert (U' : one_line u) by (intros I; apply U; right; exact I).
  assert (E' : (w2 ++ txt "cases" ++ w3 ++ txt "(") ++ T ++ k = u ++ ")"%char :: w ++ txt "cases" ++ s3).
  { rewrite <- !app_assoc. exact E. }
  apply skip_char in E' as (u2 & -> & E').
  2:{ intros I. apply in_app_or in I as [I|I]; [exact (not_space_in ")"%char w2 W2 eq_refl I)|].
      apply in_app_or in I as [I|I]; [cbn in I; repeat (destruct I as [I|I]; [discriminate I|]); exact I|].
      apply in_app_or in I as [I|I]; [exact (not_space_in ")"%char w3 W3 eq_refl I)|].
      cbn in I; destruct I as [I|I]; [discriminate I|exact I]. }
  apply one_line_app in U' as [_ U2].
  assert (E2 : T ++ k = (u2 ++ txt ")") ++ w ++ txt "cases" ++ s3) by (rewrite <- app_assoc; exact E').
  apply prefix_line in E2 as (T2 & -> & E2); [|apply one_line_app; split; [exact U2|literal]|exact St].
  symmetry in E2. destruct (split_app _ _ _ _ E2) as [(l & -> & E3)|(l & -> & E3)].
  - symmetry in E3. apply prefix_line in E3 as (l2 & -> & _); [|literal|exact St].
    apply NC. exists ((u2 ++ txt ")") ++ w), l2. rewrite <- !app_assoc. reflexivity.
  - apply space_app in W as [_ W]. apply (Af (txt "cases") l s3); auto. cbn. auto.
Qed.
Lemma no_more_in w5 tail k : space w5 -> ~ has_in tail -> after k ->
  forall u s', u <> [] -> one_line u -> txt "in" ++ w5 ++ tail ++ k = u ++ s' -> forall rest', consumes p6 s' rest' -> False.
Proof.
  intros W5 NI [St Af] u s' Nu U E rest' C. unfold p6 in C.
  apply c_spaces in C as (w & s1 & -> & W & _ & C). apply c_word in C as (s2 & -> & C).
  apply c_spaces in C as (w' & s3 & -> & W' & L & _).
  destruct u as [|c u]; [easy|]. cbn in E. injection E as <- E.
  assert (U' : one_line u) by (intros I; apply U; right; exact I).
  assert (E' : (txt "n" ++ w5) ++ tail ++ k = (u ++ w) ++ "i"%char :: txt "n" ++ w' ++ s3).
  { rewrite <- !app_assoc. exact E. }
  apply skip_char in E' as (u2 & Eu & E').
  2:{ intros I. apply in_app_or in I as [I|I]; [cbn in I; destruct I as [I|I]; [discriminate I|exact I]|].
      exact (not_space_in "i"%char w5 W5 eq_refl I). }
  assert (E2 : tail ++ k = u2 ++ txt "in" ++ w' ++ s3) by exact E'.
  destruct (split_app _ _ _ _ E2) as [(l & -> & E3)|(l & -> & E3)].
  - symmetry in E3. apply prefix_line in E3 as (l2 & -> & E4); [|literal|exact St].
    apply NI. exists u2, l2. split; [reflexivity|]. destruct l2 as [|d l2]; [left; reflexivity|right].
    exists d, l2. split; [reflexivity|]. destruct w' as [|d' w']; [cbn in L; lia|]. injection E4 as <- _. apply W'. left. reflexivity.
  - rewrite app_assoc in Eu. pose proof (spaces_beyond u w _ l k _ U' W St E3 Eu) as Sl.
    apply (Af (txt "in") l (w' ++ s3)); auto. cbn. auto.
Qed.
Lemma no_more_closing w6 rest k : space w6 -> ~ closes rest -> after k ->
  forall u s', u <> [] -> one_line u -> txt ")" ++ w6 ++ txt ":" ++ rest ++ k = u ++ s' -> forall rest', consumes p7 s' rest' -> False.
Proof.
  intros W6 NC [St Af] u s' Nu U E rest' C. unfold p7 in C.
  apply c_spaces in C as (w & s1 & -> & W & _ & C). apply c_word in C as (s2 & -> & C).
  apply c_spaces in C as (w' & s3 & -> & W' & _ & C).
  change (consumes (map Chr (txt ":") ++ []) s3 rest') in C. apply c_word in C as (s4 & -> & _).
  destruct u as [|c u]; [easy|]. cbn in E. injection E as <- E.
  assert (U' : one_line u) by (intros I; apply U; right; exact I).
  assert (E' : (w6 ++ txt ":") ++ rest ++ k = (u ++ w) ++ ")"%char :: w' ++ txt ":" ++ s4).
  { rewrite <- !app_assoc. exact E. }
  apply skip_char in E' as (u2 & Eu & E').
  2:{ intros I. apply in_app_or in I as [I|I]; [exact (not_space_in ")"%char w6 W6 eq_refl I)|].
      cbn in I; destruct I as [I|I]; [discriminate I|exact I]. }
  assert (E2 : rest ++ k = u2 ++ txt ")" ++ w' ++ txt ":" ++ s4) by exact E'.
  destruct (split_app _ _ _ _ E2) as [(l & -> & E3)|(l & -> & E3)].
  - symmetry in E3. apply prefix_line in E3 as (l2 & -> & E4); [|literal|exact St].
    destruct (split_app _ _ _ _ E4) as [(m & -> & E5)|(m & -> & E5)].
    + apply (Af (txt ":") m s4); auto; [cbn; auto|]. apply space_app in W' as [_ W']. exact W'.
    + symmetry in E5. apply prefix_line in E5 as (l3 & -> & _); [|literal|exact St].
      apply NC. exists u2, w', l3. split; [exact W'|reflexivity].
  - rewrite app_assoc in Eu. pose proof (spaces_beyond u w _ l k _ U' W St E3 Eu) as Sl.
    apply (Af (txt ")") l (w' ++ txt ":" ++ s4)); auto. cbn. auto.
Qed.

Lemma switch_matches i w1 e w2 w3 v w5 s w6 rest k :
  space i -> space w1 -> space w2 -> space w3 -> space w5 -> space w6 ->
  e <> [] -> v <> [] -> w5 <> [] -> (exists c s', s = c :: s' /\ is_space c = false) ->
  let tail := s ++ txt ")" ++ w6 ++ txt ":" ++ rest in
  one_line e -> one_line v -> one_line s ->
  ~ contains (v ++ txt "in" ++ w5 ++ tail) (txt "cases") -> ~ has_in tail -> ~ closes rest -> after k ->
  matches switch_pattern ((i ++ txt "switch" ++ w1 ++ txt "(" ++ e ++ txt ")" ++ w2 ++ txt "cases" ++ w3 ++ txt "(" ++ v ++ txt "in" ++ w5 ++ tail) ++ k)
  = Some ([i; e; v; s], rest ++ k).
Proof.
  intros Hi H1 H2 H3 H5 H6 Ne Nv N5 (c & s' & Es & Hc) tail Oe Ov Os NC NI NCl Af.
  rewrite pattern_eq. rewrite <- !app_assoc.
  refine (m_spaces true 0 _ i "s"%char _ [e; v; s] (rest ++ k) Hi eq_refl (Nat.le_0_l _) _).
  refine (eq_trans (m_word (txt "switch") _ _) _).
  refine (m_spaces false 0 _ w1 "("%char _ [e; v; s] (rest ++ k) H1 eq_refl (Nat.le_0_l _) _).
  refine (eq_trans (m_word (txt "(") _ _) _).
  apply m_dots; [exact Oe|exact Ne| |].
  2:{ intros u s1 Nu U E. apply (no_more_cases w2 w3 (v ++ txt "in" ++ w5 ++ tail) k H2 H3 NC Af u s1 Nu U).
      rewrite <- E. rewrite <- !app_assoc. reflexivity. }
  refine (eq_trans (m_word (txt ")") _ _) _).
  refine (m_spaces false 0 _ w2 "c"%char _ [v; s] (rest ++ k) H2 eq_refl (Nat.le_0_l _) _).
  refine (eq_trans (m_word (txt "cases") _ _) _).
  refine (m_spaces false 0 _ w3 "("%char _ [v; s] (rest ++ k) H3 eq_refl (Nat.le_0_l _) _).
  refine (eq_trans (m_word (txt "(") _ _) _).
  apply m_dots; [exact Ov|exact Nv| |].
  2:{ intros u s1 Nu U E. apply (no_more_in w5 tail k H5 NI Af u s1 Nu U).
      rewrite <- E. unfold tail. rewrite <- !app_assoc. reflexivity. }
  refine (m_spaces false 0 _ [] "i"%char _ [s] (rest ++ k) _ eq_refl (Nat.le_0_l _) _); [intros ? []|].
  refine (eq_trans (m_word (txt "in") _ _) _).
  unfold tail. rewrite <- !app_assoc.
  assert (M : matches (Many is_dot true 1 :: p7) (s ++ txt ")" ++ w6 ++ txt ":" ++ rest ++ k) = Some ([s], rest ++ k)).
  { apply m_dots; [exact Os|subst s; discriminate| |].
    2:{ exact (no_more_closing w6 rest k H6 NCl Af). }
    refine (m_spaces false 0 _ [] ")"%char _ [] (rest ++ k) _ eq_refl (Nat.le_0_l _) _); [intros ? []|].
    refine (eq_trans (m_word (txt ")") _ _) _).
    refine (m_spaces false 0 _ w6 ":"%char _ [] (rest ++ k) H6 eq_refl (Nat.le_0_l _) _).
    refine (eq_trans (m_word (txt ":") [] _) _). reflexivity. }
  subst s. refine (m_spaces false 1 _ w5 c _ [c :: s'] (rest ++ k) H5 Hc _ _); [destruct w5; [easy|cbn; lia]|].
  exact M.
Qed.

Lemma first_nonspace l : ~ space l -> exists i c r, l = i ++ c :: r /\ space i /\ is_space c = false.
Proof.
  induction l as [|c l IH]; intros N; [destruct N; intros ? []|].
  destruct (is_space c) eqn:C; [|exists [], c, l; repeat split; auto; intros ? []].
  destruct IH as (i & d & r & -> & I & D).
  { intros Sp. apply N. intros d [<-|J]; auto. }
  exists (c :: i), d, r. repeat split; auto. intros x [<-|J]; auto.
Qed.
Lemma lead_eq i c r w d s : space i -> is_space c = false -> space w -> is_space d = false -> i ++ c :: r = w ++ d :: s -> i = w /\ c = d /\ r = s.
Proof.
  intros I C W D E. apply skip_char in E as (u & -> & E); [|apply not_space_in; auto].
  destruct u as [|x u]; [injection E as -> ->; rewrite app_nil_r; auto|].
  injection E as <- _. apply space_app in W as [_ W]. rewrite (W c) in C by (left; reflexivity). discriminate.
Qed.
Lemma plain_matches t k : one_line t -> ~ space t -> ~ switches t -> stop k -> matches switch_pattern (t ++ k) = None.
Proof.
  intros O N NS St. destruct (matches switch_pattern (t ++ k)) as [[cs rest]|] eqn:M; [|reflexivity].
  exfalso. apply matches_sound in M. rewrite pattern_eq in M.
  apply c_spaces in M as (i & s1 & E & I & _ & M). apply c_word in M as (s2 & -> & M).
  apply c_spaces in M as (w & s3 & -> & W & _ & M). apply c_word in M as (s4 & -> & _).
  destruct (first_nonspace t N) as (i' & c & r & -> & I' & C).
  rewrite <- app_assoc in E. cbn [app] in E.
  pose proof (lead_eq i' c (r ++ k) i "s"%char (txt "witch" ++ w ++ txt "(" ++ s4) I' C I eq_refl E) as (-> & -> & E').
  assert (E2 : ("s"%char :: r) ++ k = txt "switch" ++ w ++ txt "(" ++ s4) by (cbn [app]; rewrite E'; reflexivity).
  apply prefix_line in E2 as (t2 & E2 & E3); [|literal|exact St]. rewrite E2 in *.
  destruct (split_app _ _ _ _ E3) as [(l & -> & E4)|(l & -> & E4)].
  - apply NS. exists i, t2, []. repeat split; auto; [apply space_app in W as [W _]; exact W|rewrite app_nil_r; reflexivity].
  - symmetry in E4. apply prefix_line in E4 as (l2 & -> & _); [|literal|exact St].
    apply NS. exists i, w, (txt "(" ++ l2). repeat split; eauto.
Qed.

(** ** The substitution *)
Lemma consumes_length r : forall s rest, consumes r s rest -> List.length rest <= List.length s.
Proof.
  induction r as [|[c|p g n] r IH]; intros s rest H; cbn in H.
  - subst. lia.
  - destruct H as (s' & -> & H). apply IH in H. cbn. lia.
  - destruct H as (t & s' & -> & _ & _ & H). apply IH in H. rewrite app_length. lia.
Qed.
Lemma switch_shorter s cs rest : matches switch_pattern s = Some (cs, rest) -> List.length rest < List.length s.
Proof.
  intros M. apply matches_sound in M. rewrite pattern_eq in M.
  apply c_spaces in M as (i & s1 & -> & _ & _ & M). apply c_word in M as (s2 & -> & M).
  apply consumes_length in M. rewrite !app_length. cbn. lia.
Qed.
Lemma sub_fuel n : forall m b s, List.length s < n -> List.length s < m -> sub n b s = sub m b s.
Proof.
  induction n as [|n IH]; intros m b s Hn Hm; [lia|]. destruct m as [|m]; [lia|].
  cbn [sub]. destruct s as [|c s]; [reflexivity|].
  destruct (if b then matches switch_pattern (c :: s) else None) as [[cs rest]|] eqn:M.
  - destruct b; [|discriminate]. apply switch_shorter in M. f_equal. apply IH; cbn in *; lia.
  - f_equal. apply IH; cbn in *; lia.
Qed.
Definition run (b : bool) (s : text) : text := sub (S (List.length s)) b s.
Lemma run_no b c s : (b = true -> matches switch_pattern (c :: s) = None) -> run b (c :: s) = c :: run (Ascii.eqb c newline) s.
Proof.
  intros H. unfold run. change (sub (S (List.length (c :: s))) b (c :: s)) with
    (match (if b then matches switch_pattern (c :: s) else None) with
     | Some (groups, rest) => switch_text groups ++ sub (List.length (c :: s)) false rest
     | None => c :: sub (List.length (c :: s)) (Ascii.eqb c newline) s end).
  destruct b; [rewrite H by reflexivity|]; f_equal; apply sub_fuel; cbn; lia.
Qed.
Lemma run_yes s cs rest : matches switch_pattern s = Some (cs, rest) -> run true s = switch_text cs ++ run false rest.
Proof.
  intros M. pose proof (switch_shorter _ _ _ M) as L. destruct s as [|c s]; [cbn in L; lia|].
  unfold run. change (sub (S (List.length (c :: s))) true (c :: s)) with
    (match matches switch_pattern (c :: s) with
     | Some (groups, rest) => switch_text groups ++ sub (List.length (c :: s)) false rest
     | None => c :: sub (List.length (c :: s)) (Ascii.eqb c newline) s end).
  rewrite M. f_equal. apply sub_fuel; lia.
Qed.
Lemma run_skip t k : one_line t -> run false (t ++ k) = t ++ run false k.
Proof.
  induction t as [|c t IH]; intros O; [reflexivity|]. cbn [app]. rewrite run_no by discriminate.
  assert (E : Ascii.eqb c newline = false).
  { destruct (Ascii.eqb c newline) eqn:E; [|reflexivity]. apply Ascii.eqb_eq in E as ->. destruct O. left. reflexivity. }
  rewrite E, IH; [reflexivity|]. intros I. apply O. right. exact I.
Qed.
Lemma run_line t t' k : one_line t -> ~ space t -> rewritten t t' -> after k -> run true (t ++ k) = t' ++ run false k.
Proof.
  intros O N R Af. destruct R as [t NS|i w1 e w2 w3 v w5 s w6 rest H1 H2 H3 H4 H5 H6 H7 H8 H9 H10 tail H11 H12 H13].
  - pose proof (plain_matches t k O N NS (proj1 Af)) as M. destruct t as [|c t]; [destruct N; intros ? []|].
    cbn [app] in *. rewrite run_no by (intros; exact M).
    assert (E : Ascii.eqb c newline = false).
    { destruct (Ascii.eqb c newline) eqn:E; [|reflexivity]. apply Ascii.eqb_eq in E as ->. destruct O. left. reflexivity. }
    rewrite E, run_skip; [reflexivity|]. intros I. apply O. right. exact I.
  - unfold tail in O. repeat (apply one_line_app in O; destruct O as [? O]).
    match goal with |- run true (?l ++ k) = _ => assert (M : matches switch_pattern (l ++ k) = Some ([i; e; v; s], rest ++ k)) end.
    { apply switch_matches; auto. }
    rewrite (run_yes _ _ _ M), run_skip by exact O. cbn [switch_text]. rewrite <- !app_assoc. reflexivity.
Qed.

(** ** ~= *)
Lemma replace_app a c r : ~ contains a (txt "~=") -> c <> "="%char -> replace_tilde (a ++ c :: r) = a ++ replace_tilde (c :: r).
Proof.
  intros N C. induction a as [|d a IH]; [reflexivity|].
  assert (N' : ~ contains a (txt "~=")) by (intros (x & y & ->); apply N; exists (d :: x), y; reflexivity).
  specialize (IH N'). destruct a as [|f a].
  - cbn [app replace_tilde]. destruct (Ascii.eqb c "=") eqn:E; [apply Ascii.eqb_eq in E; easy|]. rewrite andb_false_r. reflexivity.
  - change ((d :: f :: a) ++ c :: r) with (d :: f :: (a ++ c :: r)).
    change (replace_tilde (d :: f :: (a ++ c :: r))) with
      (if Ascii.eqb d "~" && Ascii.eqb f "=" then f :: replace_tilde (a ++ c :: r) else d :: replace_tilde (f :: a ++ c :: r)).
    destruct (Ascii.eqb d "~" && Ascii.eqb f "=") eqn:E.
    + apply andb_prop in E as [E1 E2]. apply Ascii.eqb_eq in E1, E2. subst. destruct N. exists [], a. reflexivity.
    + cbn [app] in IH |- *. rewrite IH. reflexivity.
Qed.
Lemma replace_end a : ~ contains a (txt "~=") -> replace_tilde a = a.
Proof.
  induction a as [|d a IH]; intros N; [reflexivity|].
  assert (N' : ~ contains a (txt "~=")) by (intros (x & y & ->); apply N; exists (d :: x), y; reflexivity).
  specialize (IH N'). destruct a as [|f a]; [reflexivity|].
  change (replace_tilde (d :: f :: a)) with
      (if Ascii.eqb d "~" && Ascii.eqb f "=" then f :: replace_tilde a else d :: replace_tilde (f :: a)).
  destruct (Ascii.eqb d "~" && Ascii.eqb f "=") eqn:E.
  - apply andb_prop in E as [E1 E2]. apply Ascii.eqb_eq in E1, E2. subst. destruct N. exists [], a. reflexivity.
  - rewrite IH. reflexivity.
Qed.
Lemma replace_tilde_eq r : replace_tilde (txt "~=" ++ r) = txt "=" ++ replace_tilde r.
Proof. reflexivity. Qed.
Lemma replace_newline r : replace_tilde (newline :: r) = newline :: replace_tilde r.
Proof. destruct r; reflexivity. Qed.
Lemma replace_line t t' : plain_text t t' -> replace_tilde t = t' /\ forall r, replace_tilde (t ++ newline :: r) = t' ++ newline :: replace_tilde r.
Proof.
  induction 1 as [t N|a t t' N _ [IH1 IH2]].
  - split; [apply replace_end, N|]. intros r. rewrite replace_app by (auto; discriminate). rewrite replace_newline. reflexivity.
  - split.
    + change (a ++ txt "~=" ++ t) with (a ++ "~"%char :: "="%char :: t). rewrite replace_app by (auto; discriminate).
      change ("~"%char :: "="%char :: t) with (txt "~=" ++ t). rewrite replace_tilde_eq, IH1. reflexivity.
    + intros r. rewrite <- app_assoc. change ((txt "~=" ++ t) ++ newline :: r) with ("~"%char :: "="%char :: (t ++ newline :: r)).
      rewrite replace_app by (auto; discriminate).
      change ("~"%char :: "="%char :: (t ++ newline :: r)) with (txt "~=" ++ (t ++ newline :: r)).
      rewrite replace_tilde_eq, IH2. rewrite <- !app_assoc. reflexivity.
Qed.
Lemma plain_one_line t t' : plain_text t t' -> one_line t -> one_line t'.
Proof.
  induction 1 as [t N|a t t' N _ IH]; [auto|]. intros O. apply one_line_app in O as [A O]. apply one_line_app in O as [_ O].
  apply one_line_app. split; [exact A|]. apply one_line_app. split; [literal|auto].
Qed.
Lemma plain_not_space t t' : plain_text t t' -> ~ space t -> ~ space t'.
Proof.
  induction 1 as [t N|a t t' N _ IH]; [auto|]. intros _ Sp. apply space_app in Sp as [_ Sp]. apply space_app in Sp as [Sp _].
  specialize (Sp "="%char (or_introl eq_refl)). discriminate.
Qed.

(** ** Lines *)
Lemma split_join ls : ls <> [] -> (forall l, In l ls -> one_line l) -> split_lines (join_lines ls) = ls.
Proof.
  assert (One : forall l, one_line l -> split_lines l = [l]).
  { induction l as [|c l IH]; intros O; [reflexivity|]. cbn [split_lines].
    destruct (Ascii.eqb c newline) eqn:E; [apply Ascii.eqb_eq in E as ->; destruct O; left; reflexivity|].
    rewrite IH; [reflexivity|]. intros I. apply O. right. exact I. }
  assert (More : forall l r, one_line l -> split_lines (l ++ newline :: r) = l :: split_lines r).
  { induction l as [|c l IH]; intros r O; [reflexivity|]. cbn [split_lines app].
    destruct (Ascii.eqb c newline) eqn:E; [apply Ascii.eqb_eq in E as ->; destruct O; left; reflexivity|].
    rewrite IH; [reflexivity|]. intros I. apply O. right. exact I. }
  induction ls as [|l ls IH]; intros Ne H; [easy|].
  destruct ls as [|l2 ls]; [apply One, H; left; reflexivity|].
  cbn [join_lines] in *. rewrite More by (apply H; left; reflexivity). f_equal. apply IH; [discriminate|].
  intros x I. apply H. right. exact I.
Qed.
Lemma nonblank_true l : nonblank l = true <-> ~ space l.
Proof.
  unfold nonblank. split.
  - intros H Sp. apply existsb_exists in H as (c & I & E). rewrite (Sp c I) in E. discriminate.
  - intros N. apply existsb_exists. destruct (first_nonspace l N) as (i & c & r & -> & _ & C).
    exists c. split; [apply in_or_app; right; left; reflexivity|]. rewrite C. reflexivity.
Qed.
Lemma nonblank_false l : space l -> nonblank l = false.
Proof. intros Sp. destruct (nonblank l) eqn:E; [|reflexivity]. apply nonblank_true in E. easy. Qed.

(** the lines after ~= has become = *)
Inductive body : list text -> list text -> Prop :=
| Bd_nil : body [] []
| Bd_cons t t' ls out : one_line t -> ~ space t -> begins t -> rewritten t t' -> body ls out -> body (t :: ls) (t' :: out).
Lemma begins_after t k : one_line t -> ~ space t -> begins t -> stop k -> after (newline :: t ++ k).
Proof.
  intros O N (B1 & B2 & B3 & B4) St. split; [right; eauto|]. intros W w b I Sw E.
  assert (Hw : ~ starts t W /\ one_line W /\ exists c W', W = c :: W' /\ is_space c = false).
  { cbn in I. repeat (destruct I as [<-|I]; [repeat split; [assumption|literal|eauto]|]). destruct I. }
  destruct Hw as (NS & OW & c & W' & -> & C).
  destruct w as [|d w]; [injection E as <- _; discriminate|]. injection E as <- E.
  destruct (first_nonspace t N) as (i & f & r & -> & I' & F). rewrite <- app_assoc in E. cbn [app] in E.
  assert (Sw' : space w) by (intros x J; apply Sw; right; exact J).
  pose proof (lead_eq i f (r ++ k) w c (W' ++ b) I' F Sw' C E) as (-> & -> & E').
  assert (E2 : (c :: r) ++ k = (c :: W') ++ b) by (cbn [app]; rewrite E'; reflexivity).
  apply prefix_line in E2 as (t2 & E2 & _); [|exact OW|exact St].
  apply NS. exists w, t2. split; [exact Sw'|]. rewrite E2. reflexivity.
Qed.
Lemma run_body ls out : body ls out -> run true (join_lines ls) = join_lines out.
Proof.
  induction 1 as [|t t' ls out O N B R Hb IH]; [reflexivity|].
  destruct Hb as [|u u' ls out O2 N2 B2 R2 Hb].
  - cbn [join_lines]. rewrite <- (app_nil_r t), (run_line t t' [] O N R); [apply app_nil_r|].
    split; [left; reflexivity|]. intros W w b I _ E. cbn in I.
    destruct w; repeat (destruct I as [<-|I]; [discriminate E|]); destruct I.
  - change (run true (t ++ newline :: join_lines (u :: ls)) = t' ++ newline :: join_lines (u' :: out)).
    assert (Hj : exists k, stop k /\ join_lines (u :: ls) = u ++ k).
    { destruct ls as [|u2 ls]; [exists []; split; [left; reflexivity|symmetry; apply app_nil_r]|].
      exists (newline :: join_lines (u2 :: ls)). split; [right; eauto|reflexivity]. }
    destruct Hj as (k & St & Hj).
    rewrite (run_line t t' (newline :: join_lines (u :: ls)) O N R).
    + rewrite run_no by discriminate. cbn [Ascii.eqb newline Bool.eqb]. f_equal. f_equal. exact IH.
    + rewrite Hj. apply begins_after; auto.
Qed.

Theorem C53_preprocess_partial : forall ls out, program ls out -> preprocess (join_lines ls) = join_lines out.
Proof.
  intros ls out H.
  assert (K : exists ls', filter nonblank ls = map fst ls' /\ Forall (fun p => plain_text (fst p) (snd p)) ls' /\ body (map snd ls') out /\ (forall l, In l ls -> one_line l)).
  { induction H as [|l ls out O Sp H (ls' & E & F & B & Ol)|l l' l'' ls out O N P Bg R H (ls' & E & F & B & Ol)].
    - exists []. repeat split; auto; [constructor|intros ? []].
    - exists ls'. cbn [filter]. rewrite (nonblank_false _ Sp). repeat split; auto. intros x [<-|I]; auto.
    - exists ((l, l') :: ls'). cbn [filter map fst snd]. rewrite (proj2 (nonblank_true l) N), E. repeat split; auto.
      + constructor; eauto using plain_one_line, plain_not_space.
      + intros x [<-|I]; auto. }
  destruct K as (ls' & E & F & B & Ol). unfold preprocess.
  assert (Ej : filter nonblank (split_lines (join_lines ls)) = map fst ls').
  { destruct ls as [|l ls]; [|rewrite split_join; [exact E|discriminate|exact Ol]].
    cbn in E. symmetry in E. apply map_eq_nil in E as ->. reflexivity. }
  rewrite Ej.
  assert (Er : replace_tilde (join_lines (map fst ls')) = join_lines (map snd ls')).
  { clear -F. induction F as [|p ls' P F IH]; [reflexivity|]. apply replace_line in P as [P1 P2].
    destruct ls' as [|q ls']; [exact P1|].
    change (replace_tilde (fst p ++ newline :: join_lines (map fst (q :: ls'))) = snd p ++ newline :: join_lines (map snd (q :: ls'))).
    rewrite P2, IH. reflexivity. }
  rewrite Er. exact (run_body _ _ B).
Qed.
