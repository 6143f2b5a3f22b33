(** Union of two intervals. *)
From Coq Require Import List Bool String Permutation ZArith Reals Lra Lia.
From Verif Require Import Base Num Sets SetSpec SetIv SetProofs.
Import ListNotations.
Local Open Scope R_scope.

Section Proofs.
  Context {N : numsys} (io : iterorder N).
  Notation enum := (ext (num N)).

  Lemma disjoint_pieces2 : forall s x : interval N, wf_iv s -> wf_iv x ->
    disjoint_b (BInt s) (BInt x) -> pieces_ok [BInt s; BInt x].
  Proof.
    intros s x Hs Hx D. repeat split; simpl; auto; repeat constructor; auto.
  Qed.

  Lemma hull_ok : forall (s x : interval N), wf_iv s -> wf_iv x ->
    pos (iv_a s) <= pos (iv_b x) -> pos (iv_a x) <= pos (iv_b s) ->
    (pos (iv_a s) = pos (iv_b x) -> iv_lo s && iv_ro x = false) ->
    (pos (iv_a x) = pos (iv_b s) -> iv_lo x && iv_ro s = false) ->
    exists j,
      match sort ep_leb [(iv_a s, iv_lo s); (iv_b s, iv_ro s); (iv_a x, iv_lo x); (iv_b x, iv_ro x)] with
        | [al; am; bm; br] =>
          let lo := if eltb (fst al) (fst am) then snd al else snd al && snd am in
          let ro := if eltb (fst bm) (fst br) then snd br else snd bm && snd br in
          do i <- Interval_ (fst al) (fst br) lo ro; Ok (PB (BInt i))
        | _ => Raise AssertionError
      end = Ok (PB (BInt j)) /\ wf_iv j /\
      (pos (iv_a j) = pos (iv_a s) \/ pos (iv_a j) = pos (iv_a x)) /\
      (forall v, iv_mem v j <-> iv_mem v s \/ iv_mem v x).
  Proof.
    intros [a b lo ro] [c d lo' ro'] Hs Hx H1 H2 H3 H4.
    apply wf_iv_cases in Hs. apply wf_iv_cases in Hx. simpl in *.
    destruct Hs as (Hab & Ba & Bb & Lo & Ro), Hx as (Hcd & Bc & Bd & Lo' & Ro').
    unfold ep_leb. simpl.
    setoid_rewrite iv_mem_pm. unfold pm.
    tri (pos a) (pos c); tri (pos b) (pos d); tri (pos a) (pos d); tri (pos b) (pos c);
      rewrite ?eltb_R, ?eeqb_R; unR;
      repeat (dec1; cbn [andb orb negb fst snd]; rewrite ?eltb_R, ?eeqb_R; unR);
      destruct lo, ro, lo', ro'; simpl in *; spec_flags;
      try (specialize (H3 ltac:(lra)); discriminate);
      try (specialize (H4 ltac:(lra)); discriminate);
      rewrite ?eltb_R, ?eeqb_R, ?Interval_R; unR;
      repeat ((first [dec1 | progress (cbn [insert])]); cbn [andb orb negb bind fst snd insert implb]; rewrite ?eltb_R, ?eeqb_R, ?Interval_R; unR);
      (eexists; split; [reflexivity|]; simpl; split;
       [apply wf_iv_pos; simpl; cmp; repeat split; intros; try lra; reflexivity|
        split; [try (left; lra); right; lra|]; intros v; cmp; lra]).
  Qed.
End Proofs.
