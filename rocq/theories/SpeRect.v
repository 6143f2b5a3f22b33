(** Products of functions of one variable, and the product rule. *)
From Coq Require Import List Bool String Reals Lra Lia ZArith QArith Qreals FunctionalExtensionality.
From Verif Require Import Base Num Sets SetSpec Poly Trans TransSpec Logs Spe SpeSpec SpeFacts.
Import ListNotations.
Local Open Scope R_scope.

Definition prodR (l : list R) : R := fold_right Rmult 1 l.
Definition rect (L : list (string * (fval -> R))) (w : asg) : R := prodR (map (fun p => snd p (w (fst p))) L).
Definition rect_ok (L : list (string * (fval -> R))) : Prop := Forall (fun p => bnd (snd p)) L.
Definition decb (P : Prop) : bool := if dec P then true else false.
Definition inside {A} (V : string -> Prop) (L : list (string * A)) := filter (fun p => decb (V (fst p))) L.
Definition outside {A} (V : string -> Prop) (L : list (string * A)) := filter (fun p => negb (decb (V (fst p)))) L.

Lemma decb_true : forall P, decb P = true <-> P.
Proof. intro P. unfold decb. destruct (dec P); split; auto; discriminate. Qed.
Lemma decb_false : forall P, decb P = false <-> ~ P.
Proof. intro P. unfold decb. destruct (dec P); split; auto; try discriminate; tauto. Qed.
Lemma decb_iff : forall P Q, (P <-> Q) -> decb P = decb Q.
Proof. intros P Q H. unfold decb. destruct (dec P), (dec Q); tauto. Qed.
Lemma prodR_app : forall l m, prodR (l ++ m) = prodR l * prodR m.
Proof. induction l; intros; simpl; [ring|rewrite IHl; ring]. Qed.
Lemma prodR_ext : forall A (f g : A -> R) l, (forall a, In a l -> f a = g a) -> prodR (map f l) = prodR (map g l).
Proof. intros A f g l H. f_equal. now apply map_ext_in. Qed.
Lemma prodR_perm : forall l m, Permutation.Permutation l m -> prodR l = prodR m.
Proof. induction 1; simpl; auto; try congruence; ring. Qed.
Lemma prodR_mult : forall A (f g : A -> R) l, prodR (map (fun a => f a * g a) l) = prodR (map f l) * prodR (map g l).
Proof. induction l; simpl; [ring|rewrite IHl; ring]. Qed.
Lemma sumR_perm : forall l m, Permutation.Permutation l m -> sumR l = sumR m.
Proof. induction 1; simpl; lra. Qed.

Lemma rect_bnd : forall L, rect_ok L -> bnd (rect L).
Proof.
  induction L as [|p L IH]; intros H; unfold rect; simpl; [apply bnd_const|]. inversion H; subst.
  apply (bnd_mult _ (fun w => snd p (w (fst p))) (rect L)); auto. apply (bnd_comp _ _ (fun w : asg => w (fst p)) (snd p)); auto.
Qed.
Lemma rect_app : forall L M w, rect (L ++ M) w = rect L w * rect M w.
Proof. intros. unfold rect. now rewrite map_app, prodR_app. Qed.
Lemma rect_split : forall V L w, rect L w = rect (inside V L) w * rect (outside V L) w.
Proof.
  intros V L w. induction L as [|p L IH]; unfold rect in *; simpl; [ring|]. destruct (decb (V (fst p))); simpl; rewrite IH; ring.
Qed.
Lemma rect_ignores : forall V L, (forall p, In p L -> ~ V (fst p)) -> ignores V (rect L).
Proof. intros V L H w w' E. unfold rect. apply prodR_ext. intros p Hp. rewrite E; auto. Qed.
Lemma inside_in : forall A V (L : list (string * A)) p, In p (inside V L) <-> In p L /\ V (fst p).
Proof. intros. unfold inside. now rewrite filter_In, decb_true. Qed.
Lemma outside_in : forall A V (L : list (string * A)) p, In p (outside V L) <-> In p L /\ ~ V (fst p).
Proof. intros. unfold outside. now rewrite filter_In, negb_true_iff, decb_false. Qed.
Lemma rect_ok_inside : forall V L, rect_ok L -> rect_ok (inside V L).
Proof. intros V L H. apply Forall_forall. intros p Hp. apply inside_in in Hp. unfold rect_ok in H. rewrite Forall_forall in H. now apply H. Qed.
Lemma rect_ok_outside : forall V L, rect_ok L -> rect_ok (outside V L).
Proof. intros V L H. apply Forall_forall. intros p Hp. apply outside_in in Hp. unfold rect_ok in H. rewrite Forall_forall in H. now apply H. Qed.
Lemma rect_ok_app : forall L M, rect_ok L -> rect_ok M -> rect_ok (L ++ M).
Proof. intros. now apply Forall_app. Qed.
Lemma filter_ext_list : forall A (f g : A -> bool) l, (forall a, In a l -> f a = g a) -> filter f l = filter g l.
Proof. intros. now apply filter_ext_in. Qed.
Lemma filter_filter : forall A (f g : A -> bool) l, filter f (filter g l) = filter (fun a => g a && f a) l.
Proof. induction l as [|a l IH]; simpl; auto. destruct (g a); simpl; rewrite IH; reflexivity. Qed.
Lemma inside_outside : forall A (V U : string -> Prop) (L : list (string * A)), (forall x, V x -> ~ U x) -> inside V (outside U L) = inside V L.
Proof.
  intros A V U L H. unfold inside, outside. rewrite filter_filter. apply filter_ext. intro p.
  destruct (decb (V (fst p))) eqn:E; [|apply andb_false_r]. apply decb_true, H, decb_false in E. now rewrite E.
Qed.
Lemma outside_outside : forall A (V U W : string -> Prop) (L : list (string * A)), (forall x, W x <-> U x \/ V x) -> outside V (outside U L) = outside W L.
Proof.
  intros A V U W L H. unfold outside. rewrite filter_filter. apply filter_ext. intro p. rewrite (decb_iff _ _ (H (fst p))).
  unfold decb. destruct (dec (V (fst p))), (dec (U (fst p))), (dec _); simpl; tauto.
Qed.
Lemma inside_ext : forall A (V U : string -> Prop) (L : list (string * A)), (forall x, V x <-> U x) -> inside V L = inside U L.
Proof. intros A V U L H. unfold inside. apply filter_ext. intro p. apply decb_iff, H. Qed.
Lemma outside_ext : forall A (V U : string -> Prop) (L : list (string * A)), (forall x, V x <-> U x) -> outside V L = outside U L.
Proof. intros A V U L H. unfold outside. apply filter_ext. intro p. f_equal. apply decb_iff, H. Qed.

(** every simple function is a linear combination of products *)
Definition combo (T : list (R * list (string * (fval -> R)))) (w : asg) : R := sumR (map (fun t => fst t * rect (snd t) w) T).
Lemma combo_app : forall T U w, combo (T ++ U) w = combo T w + combo U w.
Proof. intros. unfold combo. now rewrite map_app, sumR_app. Qed.
Lemma combo_mult : forall T U w, combo (List.concat (map (fun t => map (fun u => (fst t * fst u, snd t ++ snd u)) U) T)) w = combo T w * combo U w.
Proof.
  intros T U w. induction T as [|t T IH]; simpl; [unfold combo; simpl; ring|]. rewrite combo_app, IH.
  assert (E : combo (map (fun u => (fst t * fst u, snd t ++ snd u)) U) w = fst t * rect (snd t) w * combo U w).
  { clear. unfold combo. induction U as [|u U IH]; simpl; [ring|]. rewrite IH, rect_app. ring. }
  rewrite E. unfold combo. simpl. ring.
Qed.
Lemma simple_combo : forall f, simple f -> exists T, Forall (fun t => rect_ok (snd t)) T /\ forall w, f w = combo T w.
Proof.
  induction 1 as [c|x g Hg|f g _ (T & HT & ET) _ (U & HU & EU)|f g _ (T & HT & ET) _ (U & HU & EU)|f g E _ (T & HT & ET)].
  - exists [(c, [])]. split; [repeat constructor|]. intros w. unfold combo, rect. simpl. ring.
  - exists [(1, [(x, g)])]. split; [repeat constructor; auto|]. intros w. unfold combo, rect. simpl. ring.
  - exists (T ++ U). split; [now apply Forall_app|]. intros w. now rewrite combo_app, ET, EU.
  - eexists. split; [|intro w; rewrite ET, EU, <- combo_mult; reflexivity]. apply Forall_concat, Forall_map. eapply Forall_impl; [|exact HT].
    intros t Ht. apply Forall_map. eapply Forall_impl; [|exact HU]. intros u Hu. simpl. now apply rect_ok_app.
  - exists T. split; auto. intro w. now rewrite <- E.
Qed.
Lemma simple_bnd : forall f, simple f -> bnd f.
Proof.
  induction 1 as [c|x g Hg|f g _ IH1 _ IH2|f g _ IH1 _ IH2|f g E _ (M & HM)].
  - apply bnd_const.
  - apply (bnd_comp _ _ (fun w : asg => w x) g); auto.
  - now apply bnd_plus.
  - now apply bnd_mult.
  - exists M. intro a. now rewrite <- E.
Qed.
Lemma rect_simple : forall L, rect_ok L -> simple (rect L).
Proof.
  induction L as [|p L IH]; intros H; [exact (simple_const 1)|]. inversion H; subst.
  apply (simple_mult (fun w => snd p (w (fst p))) (rect L)); auto. now apply simple_var.
Qed.
Lemma simple_scale : forall c f, simple f -> simple (fun w => c * f w).
Proof. intros. apply (simple_mult (fun _ => c)); auto. constructor. Qed.
Lemma simple_ind_var : forall x (P : fval -> Prop), simple (ind (fun w : asg => P (w x))).
Proof. intros x P. apply (simple_ext (fun w => ind P (w x))); [|apply simple_var, bnd_ind]. intro w. now apply ind_eq. Qed.
Lemma simple_ind_not : forall P, simple (ind P) -> simple (ind (fun w => ~ P w)).
Proof.
  intros P H. apply (simple_ext (fun w => 1 + (-1) * ind P w)); [|apply (simple_plus (fun _ => 1)); [constructor|now apply simple_scale]].
  intro w. rewrite ind_not. ring.
Qed.
Lemma simple_ind_and : forall P Q, simple (ind P) -> simple (ind Q) -> simple (ind (fun w => P w /\ Q w)).
Proof. intros P Q HP HQ. apply (simple_ext (fun w => ind P w * ind Q w)); [intro w; symmetry; apply ind_and|now apply simple_mult]. Qed.
Lemma simple_ind_ext : forall P Q : asg -> Prop, (forall w, P w <-> Q w) -> simple (ind P) -> simple (ind Q).
Proof. intros P Q H. now rewrite (ind_iff _ P Q H). Qed.
Lemma simple_ind_or : forall P Q, simple (ind P) -> simple (ind Q) -> simple (ind (fun w => P w \/ Q w)).
Proof.
  intros P Q HP HQ. apply (simple_ind_ext (fun w => ~ (~ P w /\ ~ Q w))).
  - intro w. destruct (dec (P w)), (dec (Q w)); tauto.
  - apply simple_ind_not, simple_ind_and; now apply simple_ind_not.
Qed.
Lemma simple_ind_const : forall P : Prop, simple (ind (fun _ => P)).
Proof. intro P. apply (simple_ext (fun _ => if dec P then 1 else 0)); [reflexivity|constructor]. Qed.
Lemma simple_ind_ex : forall A (l : list A) (P : A -> asg -> Prop), (forall a, In a l -> simple (ind (P a))) -> simple (ind (fun w => exists a, In a l /\ P a w)).
Proof.
  induction l as [|a l IH]; intros P H.
  - apply (simple_ind_ext (fun _ => False)); [intro w; split; [tauto|intros (a & [] & _)]|apply simple_ind_const].
  - apply (simple_ind_ext (fun w => P a w \/ exists b, In b l /\ P b w)).
    + intro w. split.
      * intros [K|(b & K1 & K2)]; [exists a; simpl; auto|exists b; simpl; auto].
      * intros (b & [<-|K1] & K2); eauto.
    + apply simple_ind_or; [apply H; now left|]. apply IH. intros; apply H. now right.
Qed.
Lemma simple_ind_all : forall A (l : list A) (P : A -> asg -> Prop), (forall a, In a l -> simple (ind (P a))) -> simple (ind (fun w => forall a, In a l -> P a w)).
Proof.
  intros A l P H. apply (simple_ind_ext (fun w => ~ exists a, In a l /\ ~ P a w)).
  - intro w. split.
    + intros K a Ha. destruct (dec (P a w)); auto. destruct K. eauto.
    + intros K (a & Ha & Hn). auto.
  - apply simple_ind_not. apply simple_ind_ex. intros a Ha. now apply simple_ind_not, H.
Qed.

Section Rect.
  Context {N : numsys} {S : logsys} {D : distsys N S} (dlaw : dist D -> (fval -> R) -> R).
  Notation spe := (spe D).
  Notation den := (den dlaw).
  Notation den_prod := (den_prod den).
  Notation wf_spe := (wf_spe dlaw).

  Lemma den_combo : forall s T w, wf_spe s -> Forall (fun t => rect_ok (snd t)) T ->
    den s (combo T) w = sumR (map (fun t => fst t * den s (rect (snd t)) w) T).
  Proof.
    intros s T w W H. rewrite Forall_forall in H. unfold combo. rewrite (law_sum (den_kernel dlaw s W w) _ T (fun t w => fst t * rect (snd t) w)).
    - apply sumR_ext. intros t Ht. apply (law_scale (den_kernel dlaw s W w)). now apply rect_bnd, H.
    - intros t Ht. apply bnd_scale. now apply rect_bnd, H.
  Qed.
  Lemma same_law_rect : forall s t, wf_spe s -> wf_spe t -> (forall L w, rect_ok L -> den s (rect L) w = den t (rect L) w) -> same_law dlaw s t.
  Proof.
    intros s t Ws Wt H f Hf w. destruct (simple_combo f Hf) as (T & HT & E).
    replace f with (combo T) by (extensionality a; auto). rewrite !den_combo by auto. apply sumR_ext. intros u Hu. f_equal. apply H.
    rewrite Forall_forall in HT. auto.
  Qed.
  Lemma given_rect : forall s P t, wf_spe s -> wf_spe t ->
    (forall L w, rect_ok L -> den t (rect L) w * den s (ind P) w = den s (fun a => rect L a * ind P a) w) -> given dlaw s P t.
  Proof.
    intros s P t Ws Wt H f Hf w. destruct (simple_combo f Hf) as (T & HT & E).
    replace f with (combo T) by (extensionality a; auto). rewrite den_combo by auto.
    assert (Ex : (fun a => combo T a * ind P a) = (fun a => sumR (map (fun u => fst u * (rect (snd u) a * ind P a)) T))).
    { extensionality a. unfold combo. rewrite <- sumR_scale. apply sumR_ext. intros; ring. }
    rewrite Ex. rewrite Forall_forall in HT.
    rewrite (law_sum (den_kernel dlaw s Ws w) _ T (fun u a => fst u * (rect (snd u) a * ind P a))).
    - rewrite <- sumR_scale. apply sumR_ext. intros u Hu. rewrite (law_scale (den_kernel dlaw s Ws w) _ (fun a => rect (snd u) a * ind P a)).
      + rewrite <- H by auto. ring.
      + apply bnd_mult; [now apply rect_bnd, HT|apply bnd_ind].
    - intros u Hu. apply bnd_scale, bnd_mult; [now apply rect_bnd, HT|apply bnd_ind].
  Qed.

  Lemma apart_pvars : forall c l, Forall (apart c) l -> forall x, vars c x -> pvars (S:=S) (D:=D) l x -> False.
  Proof. intros c l H x Hc Hl. apply pvars_in in Hl. destruct Hl as (d & Hd & Hx). rewrite Forall_forall in H. exact (H d Hd x Hc Hx). Qed.
  (** the product rule *)
  Theorem prod_rect : forall l L w, All wf_spe l -> ForallOrdPairs (apart (D:=D)) l -> rect_ok L ->
    den_prod l (rect L) w = prodR (map (fun c => den c (rect (inside (vars c) L)) w) l) * rect (outside (pvars l) L) w.
  Proof.
    induction l as [|c l IH]; intros L w W A HL.
    - simpl. unfold outside. rewrite (filter_ext_list _ _ (fun _ => true)).
      + assert (E : forall A (l : list A), filter (fun _ => true) l = l) by (induction l as [|? ? IHl]; simpl; [auto|now rewrite IHl]). rewrite E. ring.
      + intros p _. apply negb_true_iff, decb_false. intros [].
    - destruct W as (Wc & Wl). inversion A as [|? ? Ac Al]; subst. pose proof (apart_pvars c l Ac) as Ap.
      transitivity (den_prod (c :: l) (fun a => rect (inside (vars c) L) a * rect (outside (vars c) L) a) w).
      + apply (prod_reach_wf dlaw (c :: l)); [split; auto|]. intros. apply rect_split.
      + assert (I1 : ignores (pvars l) (rect (inside (vars c) L))).
        { apply rect_ignores. intros p Hp K. apply inside_in in Hp. exact (Ap _ (proj2 Hp) K). }
        assert (I2 : ignores (vars c) (rect (outside (vars c) L))).
        { apply rect_ignores. intros p Hp. apply outside_in in Hp. tauto. }
        rewrite (prod_split dlaw) by auto using rect_bnd, rect_ok_inside, rect_ok_outside.
        rewrite IH by auto using rect_ok_outside. cbn [map prodR fold_right]. rewrite Rmult_assoc. f_equal. fold (prodR (map (fun d => den d (rect (inside (vars d) L)) w) l)). f_equal.
        * apply prodR_ext. intros d Hd. rewrite inside_outside; auto. intros x Hx Hy. rewrite Forall_forall in Ac. exact (Ac d Hd x Hy Hx).
        * rewrite (outside_outside _ _ _ (pvars (c :: l))); [reflexivity|]. intro x. apply pvars_cons.
  Qed.
  Lemma prod_den_rect : forall l L w, wf_spe (ProductSPE l) -> rect_ok L ->
    den (ProductSPE l) (rect L) w = prodR (map (fun c => den c (rect (inside (vars c) L)) w) l) * rect (outside (pvars l) L) w.
  Proof. intros l L w (_ & W & A) HL. now apply prod_rect. Qed.
End Rect.
