From Coq Require Import Arith NArith ZArith Bool List Permutation Lia ZifyBool ZifyNat ZifyN.
From Verif Require Import Field ExprModel SystemModel SymModel SymSpec SymFacts MemModel MemSpec.
Import ListNotations.
Local Open Scope nat_scope.

Section ExecBusFacts.
  Context {p : positive}.
  Add Ring Fr : (F_ring_theory (p:=p)).
  Context (id : N).
  Let on (l : list (sbus p)) := filter (fun b => (sb_id b =? id)%N) l.
  Let off (l : list (sbus p)) := filter (fun b => negb (sb_id b =? id)%N) l.
  Definition handover_eqs (sr : sbus p * sbus p) : list (aexpr p) :=
    map (fun z => constraint_from (ABin (fst z) OSub (snd z))) (combine (sb_args (snd sr)) (sb_args (fst sr))).
  Definition same_length (sr : sbus p * sbus p) : Prop := length (sb_args (fst sr)) = length (sb_args (snd sr)).
  Definition rest_ok (s : sbus p) (ps : list (sbus p * sbus p)) (l : list (sbus p)) (x : estate p) : Prop :=
    (forall x', exec_loop id l x = Some x' -> es_kept x' = es_kept x ++ off l /\ es_send x' = Some (last_send s ps) /\
      es_new x' = es_new x ++ flat_map handover_eqs (handovers s ps) /\ Forall same_length (handovers s ps)) /\
    (Forall same_length (handovers s ps) -> exec_loop id l x <> None).
  Lemma rest_run (l : list (sbus p)) :
    (forall s ps x, es_seen x = true -> es_receive x = false -> on l = s :: receives_and_sends ps -> rest_ok s ps l x) /\
    (forall s ps x, es_seen x = true -> es_receive x = true -> es_send x = Some s -> on l = receives_and_sends ps -> rest_ok s ps l x).
  Proof.
    induction l as [|b l [IHa IHb]]; cbn [on filter].
    - split; [discriminate|]. intros s ps x H1 H2 H3 H4. destruct ps as [|[r s'] ps]; [|discriminate]. split; [|discriminate]. intros x' [= <-]. cbn [off filter handovers last_send flat_map]. rewrite !app_nil_r. auto.
    - fold on. assert (Eoff : off (b :: l) = if (sb_id b =? id)%N then off l else b :: off l) by (unfold off; cbn [filter]; destruct (sb_id b =? id)%N; reflexivity).
      unfold rest_ok. rewrite Eoff. cbn [exec_loop]. unfold exec_step. split.
      + intros s ps x H1 H2. destruct (sb_id b =? id)%N eqn:Eb; cbn [negb].
        * intros [= -> H]. rewrite H1, H2. cbn [negb]. destruct (IHb s ps (mkES true true (Some s) (es_new x) (es_kept x)) eq_refl eq_refl eq_refl H) as [A B]. split; [exact A|exact B].
        * intros H. destruct (IHa s ps (mkES (es_seen x) (es_receive x) (es_send x) (es_new x) (es_kept x ++ [b])) H1 H2 H) as [A B]. split; [|exact B]. intros x' E. destruct (A x' E) as (A1 & A2 & A3 & A4). cbn [es_kept es_new] in *. rewrite <- app_assoc in A1. auto.
      + intros s ps x H1 H2 H3. destruct (sb_id b =? id)%N eqn:Eb; cbn [negb].
        * intros H. destruct ps as [|[r s'] ps]; [discriminate|]. cbn in H. injection H as -> H. rewrite H1, H2, H3. cbn [negb handovers last_send flat_map]. destruct (zip_eq (sb_args r) (sb_args s)) as [z|] eqn:Ez.
          -- apply zip_eq_some in Ez. destruct Ez as [Hl ->]. destruct (IHa s' ps (mkES true false (Some s) (es_new x ++ map (fun z => constraint_from (ABin (fst z) OSub (snd z))) (combine (sb_args r) (sb_args s))) (es_kept x)) eq_refl eq_refl H) as [A B]. split.
             ++ intros x' E. destruct (A x' E) as (A1 & A2 & A3 & A4). cbn [es_kept es_new] in *. rewrite <- app_assoc in A3. split; auto. split; auto. split; [exact A3|]. constructor; auto. unfold same_length. cbn. auto.
             ++ intros F. inversion F. auto.
          -- split; [discriminate|]. intros F. inversion F as [|? ? F1 _]. unfold same_length in F1. cbn in F1. assert (X : zip_eq (sb_args r) (sb_args s) = Some (combine (sb_args r) (sb_args s))) by (apply zip_eq_some; auto). congruence.
        * intros H. destruct (IHb s ps (mkES (es_seen x) (es_receive x) (es_send x) (es_new x) (es_kept x ++ [b])) H1 H2 H3 H) as [A B]. split; [|exact B]. intros x' E. destruct (A x' E) as (A1 & A2 & A3 & A4). cbn [es_kept es_new] in *. rewrite <- app_assoc in A1. auto.
  Qed.
  Lemma first_run (l : list (sbus p)) r s ps kept : on l = r :: s :: receives_and_sends ps ->
    let x := mkES false true None [] kept in
    (forall x', exec_loop id l x = Some x' -> (exists a b, off l = a ++ b /\ es_kept x' = kept ++ a ++ r :: b) /\ es_send x' = Some (last_send s ps) /\
      es_new x' = flat_map handover_eqs (handovers s ps) /\ Forall same_length (handovers s ps)) /\
    (Forall same_length (handovers s ps) -> exec_loop id l x <> None).
  Proof.
    revert kept. induction l as [|b l IH]; intros kept H x; [discriminate|]. unfold x. cbn [exec_loop]. unfold exec_step. cbn [es_seen es_receive es_send es_new es_kept negb]. unfold on in H. cbn [filter] in H. unfold off. cbn [filter]. destruct (sb_id b =? id)%N eqn:Eb; cbn [negb].
    - injection H as -> H. destruct (rest_run l) as [Ra _]. destruct (Ra s ps (mkES true false None [] (kept ++ [r])) eq_refl eq_refl H) as [A B]. split; [|exact B]. intros x' E. destruct (A x' E) as (A1 & A2 & A3 & A4). split; auto. exists [], (off l). split; auto. rewrite A1. cbn [es_kept]. rewrite <- app_assoc. reflexivity.
    - destruct (IH (kept ++ [b]) H) as [A B]. split; [|exact B]. intros x' E. destruct (A x' E) as ((a & b' & A0 & A1) & A2). split; auto. exists (b :: a), b'. split; [unfold off in A0; now rewrite A0|]. rewrite A1, <- app_assoc. reflexivity.
  Qed.
  (** ** Net messages *)
  Lemma net_messages_app bus args (a b : list (N * F p * list (F p))) : net_messages bus args (a ++ b) = (net_messages bus args a + net_messages bus args b)%F.
  Proof. induction a as [|[[x y] z] a IH]; cbn [app net_messages]; [ring|]. rewrite IH. ring. Qed.
  Lemma net_messages_perm bus args (a b : list (N * F p * list (F p))) : Permutation a b -> net_messages bus args a = net_messages bus args b.
  Proof. induction 1 as [|[[x y] z] a b _ IH|[[x y] z] [[x' y'] z'] a|a b c _ IH1 _ IH2]; cbn [net_messages]; [auto|now rewrite IH|ring|congruence]. Qed.
  Lemma handover_perm (s : sbus p) ps : Permutation (s :: receives_and_sends ps) (flat_map (fun sr => [fst sr; snd sr]) (handovers s ps) ++ [last_send s ps]).
  Proof. revert s. induction ps as [|[r s'] ps IH]; intros s; cbn [receives_and_sends flat_map handovers last_send app fst snd]; auto. Qed.
  Lemma on_off_perm (l : list (sbus p)) : Permutation l (on l ++ off l).
  Proof. unfold on, off. induction l as [|b l IH]; cbn [filter]; auto. destruct (sb_id b =? id)%N; cbn [negb app]; [now constructor|]. apply Permutation_cons_app. exact IH. Qed.
  Lemma fsub_zero (a b : F p) : (a - b)%F = 0%F <-> a = b.
  Proof. split; [intros H; transitivity (a - b + b)%F; [ring|rewrite H; ring]|intros ->; ring]. Qed.
  Lemma fcancel (a : F p) : (a + (fopp a + 0))%F = 0%F.
  Proof. ring. Qed.
  Lemma fzeros : (0 + (0 + 0))%F = (0 : F p)%F.
  Proof. ring. Qed.
End ExecBusFacts.
