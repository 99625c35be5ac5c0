From Coq Require Import Arith NArith Bool List Lia ZifyBool ZifyNat ZifyN Permutation.
From Verif Require Import PartModel PartSpec PartFacts BlocksModel EmpModel EmpSpec.
Import ListNotations.

(** ** Maps *)
Section Maps.
  Context {V : Type}.
  Lemma get_gt k (m : list (N * V)) : Forall (fun kv => (k < fst kv)%N) m -> nm_get k m = None.
  Proof. induction 1 as [|[k' v] m H Hr IH]; cbn; auto. cbn in H. destruct (N.eqb_spec k k'); [lia|auto]. Qed.
  Lemma get_put k f v k' (m : list (N * V)) : keys_sorted m ->
    nm_get k' (nm_put k f v m) = if (k' =? k)%N then Some (match nm_get k m with Some x => f x | None => v end) else nm_get k' m.
  Proof.
    induction m as [|[k0 v0] m IH]; intros Hs; cbn [nm_put nm_get]; [reflexivity|]. destruct Hs as [H1 H2]. destruct (N.compare_spec k k0) as [->|L|L]; cbn [nm_get].
    - rewrite N.eqb_refl. destruct (N.eqb_spec k' k0); auto.
    - destruct (N.eqb_spec k k0); [lia|]. rewrite (get_gt k m); [destruct (N.eqb_spec k' k); auto|]. eapply Forall_impl; [|exact H1]. cbn. lia.
    - rewrite IH by auto. destruct (N.eqb_spec k k0); [lia|]. destruct (N.eqb_spec k' k0) as [->|]; [destruct (N.eqb_spec k0 k); [lia|auto]|auto].
  Qed.
  Lemma put_keys k f v (m : list (N * V)) x : (x < k)%N -> Forall (fun kv => (x < fst kv)%N) m -> Forall (fun kv => (x < fst kv)%N) (nm_put k f v m).
  Proof. intros Hx. induction 1 as [|[k0 v0] m H Hr IH]; cbn [nm_put]; [repeat constructor; auto|]. cbn in H. destruct (N.compare k k0); repeat (constructor; auto). Qed.
  Lemma put_sorted k f v (m : list (N * V)) : keys_sorted m -> keys_sorted (nm_put k f v m).
  Proof.
    induction m as [|[k0 v0] m IH]; intros Hs; cbn [nm_put keys_sorted]; [auto|]. destruct Hs as [H1 H2]. destruct (N.compare_spec k k0) as [->|L|L]; cbn [keys_sorted]; auto.
    - split; [|auto]. constructor; auto. eapply Forall_impl; [|exact H1]. cbn. lia.
    - split; auto. apply put_keys; auto.
  Qed.
  Lemma get_in k v (m : list (N * V)) : nm_get k m = Some v -> In (k, v) m.
  Proof. induction m as [|[k' v'] m IH]; cbn; [discriminate|]. destruct (N.eqb_spec k k') as [->|]; [intros [= ->]; now left|auto]. Qed.
  Lemma in_get k v (m : list (N * V)) : keys_sorted m -> In (k, v) m -> nm_get k m = Some v.
  Proof.
    induction m as [|[k' v'] m IH]; intros Hs Hi; [destruct Hi|]. destruct Hs as [H1 H2]. cbn. destruct Hi as [[= -> ->]|Hi]; [now rewrite N.eqb_refl|].
    rewrite Forall_forall in H1. specialize (H1 _ Hi). cbn in H1. destruct (N.eqb_spec k k'); [lia|auto].
  Qed.
  Lemma put_forall (P : N * V -> Prop) k f v (m : list (N * V)) : Forall P m -> (forall x, nm_get k m = Some x -> P (k, f x)) -> P (k, v) -> Forall P (nm_put k f v m).
  Proof.
    induction 1 as [|[k0 v0] m H Hr IH]; intros Hf Hv; cbn [nm_put]; [auto|]. destruct (N.compare_spec k k0) as [->|L|L]; auto.
    - constructor; auto. apply Hf. cbn. now rewrite N.eqb_refl.
    - constructor; auto. apply IH; auto. intros x Hx. apply Hf. cbn. destruct (N.eqb_spec k k0); [lia|auto].
  Qed.
  Lemma filter_sorted (f : N * V -> bool) (m : list (N * V)) : keys_sorted m -> keys_sorted (filter f m).
  Proof.
    induction m as [|[k v] m IH]; cbn [filter keys_sorted]; auto. intros [H1 H2]. destruct (f (k, v)); auto. split; auto. apply Forall_forall. intros x Hx. apply filter_In in Hx. rewrite Forall_forall in H1. apply H1. tauto.
  Qed.
  Lemma filter_get (f : N * V -> bool) k (m : list (N * V)) : keys_sorted m ->
    nm_get k (filter f m) = match nm_get k m with Some v => if f (k, v) then Some v else None | None => None end.
  Proof.
    induction m as [|[k0 v0] m IH]; cbn [filter nm_get]; auto. intros [H1 H2]. destruct (N.eqb_spec k k0) as [->|Hk].
    - destruct (f (k0, v0)) eqn:E0; [cbn; now rewrite N.eqb_refl|]. rewrite IH by auto. now rewrite (get_gt k0 m H1).
    - destruct (f (k0, v0)); [cbn; destruct (N.eqb_spec k k0); [contradiction|]|]; auto.
  Qed.
  (** [fold_left] of puts with distinct keys. *)
  Lemma fold_put (f : N -> V -> V -> V) (b : list (N * V)) : forall a, keys_sorted a -> keys_sorted b ->
    let m := fold_left (fun m kv => nm_put (fst kv) (fun old => f (fst kv) old (snd kv)) (snd kv) m) b a in
    keys_sorted m /\ forall k, nm_get k m = match nm_get k a, nm_get k b with Some x, Some y => Some (f k x y) | Some x, None => Some x | None, y => y end.
  Proof.
    induction b as [|[k0 v0] b IH]; intros a Ha Hb; cbn zeta; cbn [fold_left].
    - split; auto. intros k. cbn. destruct (nm_get k a); auto.
    - destruct Hb as [H1 H2]. destruct (IH (nm_put k0 (fun old => f k0 old v0) v0 a) (put_sorted _ _ _ _ Ha) H2) as [A B]. split; auto. intros k. cbn [fst snd]. rewrite B, get_put by auto. cbn [nm_get].
      destruct (N.eqb_spec k k0) as [->|]; [|reflexivity]. rewrite (get_gt k0 b H1). destruct (nm_get k0 a); auto.
  Qed.
  Lemma collect_get (l : list (N * V)) : (forall k v w, In (k, v) l -> In (k, w) l -> v = w) ->
    keys_sorted (nm_collect l) /\ forall k v, nm_get k (nm_collect l) = Some v <-> In (k, v) l.
  Proof.
    unfold nm_collect. induction l as [|[k0 v0] l IH] using rev_ind; intros Hf; [cbn; split; auto; intros; split; [discriminate|intros []]|].
    rewrite fold_left_app. cbn [fold_left fst snd]. destruct IH as [A B]; [intros k v w Hv Hw; apply (Hf k); apply in_or_app; auto|]. split; [now apply put_sorted|]. intros k v. rewrite get_put by auto.
    rewrite in_app_iff. cbn [In]. destruct (N.eqb_spec k k0) as [->|Hk].
    - split.
      + intros X. right. left. destruct (nm_get k0 _); congruence.
      + intros H. assert (v = v0) as ->. { apply (Hf k0); [apply in_or_app; cbn; tauto|apply in_or_app; right; now left]. } destruct (nm_get k0 _); auto.
    - rewrite B. split; [tauto|]. intros [|[[= -> ->]|[]]]; auto. contradiction.
  Qed.
End Maps.

Lemma cell_eqb_eq a b : cell_eqb a b = true <-> a = b.
Proof. unfold cell_eqb. destruct a, b. cbn. rewrite andb_true_iff, !Nat.eqb_eq. split; [intros [-> ->]; auto|intros [= -> ->]; auto]. Qed.
Lemma widen_nth o : forall n i, nth_error (widen o n) i =
  match nth_error o i, nth_error n i with Some (a, b), Some (c, d) => Some (N.min a c, N.max b d) | x, None => x | None, _ => None end.
Proof.
  induction o as [|[a b] o IH]; intros [|[c d] n] [|i]; cbn; auto; try (destruct (nth_error n i); reflexivity). destruct (nth_error o i) as [[? ?]|]; reflexivity.
Qed.
Lemma in_enumerate {A} (l : list A) i x : In (i, x) (enumerate l) <-> nth_error l i = Some x.
Proof.
  unfold enumerate. assert (G : forall s, In (i, x) (combine (seq s (length l)) l) <-> s <= i /\ nth_error l (i - s) = Some x).
  { induction l as [|y l IH]; intros s; cbn [length seq combine In].
    - split; [intros []|]. intros [_ H]. destruct (i - s); discriminate.
    - rewrite IH. split.
      + intros [[= <- <-]|[H1 H2]]; [split; [lia|]; now rewrite Nat.sub_diag|]. split; [lia|]. replace (i - s) with (S (i - S s)) by lia. exact H2.
      + intros [H1 H2]. destruct (Nat.eq_dec i s) as [->|]; [left; rewrite Nat.sub_diag in H2; cbn in H2; congruence|right]. split; [lia|]. replace (i - s) with (S (i - S s)) in H2 by lia. exact H2. }
  rewrite (G 0). rewrite Nat.sub_0_r. intuition lia.
Qed.
Lemma all_some_in {A B} (f : A -> option B) l l' : all_some (map f l) = Some l' -> forall b, In b l' <-> exists a, In a l /\ f a = Some b.
Proof.
  revert l'. induction l as [|a l IH]; intros l'; cbn; [intros [= <-] b; split; [intros []|intros (a & [] & _)]|]. destruct (f a) as [b0|] eqn:E0; [|discriminate]. destruct (all_some (map f l)) as [l0|]; [|discriminate].
  intros [= <-] b. cbn. rewrite (IH l0 eq_refl). split.
  - intros [<-|(a' & X & Y)]; [exists a; auto|exists a'; auto].
  - intros (a' & [<-|X] & Y); [left; congruence|right; eauto].
Qed.
Lemma all_some_none {A B} (f : A -> option B) l : all_some (map f l) = None <-> exists a, In a l /\ f a = None.
Proof.
  induction l as [|a l IH]; cbn; [split; [discriminate|intros (a & [] & _)]|]. destruct (f a) as [b0|] eqn:E0; [|split; auto; intros _; exists a; auto].
  destruct (all_some (map f l)) as [l0|].
  - split; [discriminate|]. intros (a' & [<-|X] & Y); [congruence|]. exfalso. assert (Z : Some l0 = None) by (apply IH; eauto). discriminate.
  - split; auto. intros _. destruct (proj1 IH eq_refl) as (a' & X & Y). exists a'. auto.
Qed.

Section EmpFacts.
  Context (ord : list (cell * nat) -> list (cell * nat)) (gord : list (list cell) -> list (list cell)).
  Hypothesis ord_perm : forall l, Permutation (ord l) l.
  Hypothesis gord_perm : forall l, Permutation (gord l) l.

  Lemma combine_classes_ok b : forall a, keys_sorted a -> keys_sorted b -> Forall (fun kp => part_ok (snd kp)) a -> Forall (fun kp => part_ok (snd kp)) b ->
    exists m, combine_classes ord gord a b = Some m /\ keys_sorted m /\ Forall (fun kp => part_ok (snd kp)) m /\
      forall k, match nm_get k a, nm_get k b with
                | Some p, Some q => exists r, nm_get k m = Some r /\ forall x y, x <> y -> (together r x y <-> together p x y /\ together q x y)
                | Some p, None => nm_get k m = Some p
                | None, y => nm_get k m = y
                end.
  Proof.
    unfold combine_classes. induction b as [|[k0 q] b IH]; intros a Ha Hb Pa Pb; cbn [fold_left].
    - exists a. repeat split; auto. intros k. cbn. destruct (nm_get k a); auto.
    - destruct Hb as [H1 H2]. inversion Pb as [|? ? Pq Pb']; subst. cbn [fst snd] in *. destruct (nm_get k0 a) as [p|] eqn:E0.
      + pose proof (get_in _ _ _ E0) as Hp. rewrite Forall_forall in Pa. specialize (Pa _ Hp) as Pp. cbn in Pp. rewrite <- Forall_forall in Pa. destruct (intersect_ok cell_eqb cell_eqb_eq ord gord ord_perm gord_perm p q Pp Pq) as (r & -> & R1 & R2).
        destruct (IH (nm_put k0 (fun _ => r) r a)) as (m & M1 & M2 & M3 & M4); auto; [now apply put_sorted|apply put_forall; auto|]. exists m. split; [exact M1|]. split; [exact M2|]. split; [exact M3|]. intros k. specialize (M4 k). rewrite get_put in M4 by auto. cbn [nm_get].
        destruct (N.eqb_spec k k0) as [E1|E1]; [|exact M4]. rewrite E1 in *. clear k E1. rewrite E0 in M4 |- *. rewrite (get_gt k0 b H1) in M4. exists r. auto.
      + destruct (IH (nm_put k0 (fun _ => q) q a)) as (m & M1 & M2 & M3 & M4); auto; [now apply put_sorted|apply put_forall; auto|]. exists m. split; [exact M1|]. split; [exact M2|]. split; [exact M3|]. intros k. specialize (M4 k). rewrite get_put in M4 by auto. cbn [nm_get].
        destruct (N.eqb_spec k k0) as [E1|E1]; [|exact M4]. rewrite E1 in *. clear k E1. rewrite E0 in M4 |- *. rewrite (get_gt k0 b H1) in M4. exact M4.
  Qed.
  Lemma combine_with_ok a b : emp_ok a -> emp_ok b -> exists e, combine_with ord gord a b = Some e /\ emp_ok e /\
    (forall pc, nm_get pc (column_ranges e) = match nm_get pc (column_ranges a), nm_get pc (column_ranges b) with Some x, Some y => Some (widen x y) | Some x, None => Some x | None, y => y end) /\
    (forall k, match nm_get k (block_classes a), nm_get k (block_classes b) with
                | Some p, Some q => exists r, nm_get k (block_classes e) = Some r /\ forall x y, x <> y -> (together r x y <-> together p x y /\ together q x y)
                | Some p, None => nm_get k (block_classes e) = Some p
                | None, y => nm_get k (block_classes e) = y
                end) /\
    (forall pc, count_of (pc_counts e) pc = (count_of (pc_counts a) pc + count_of (pc_counts b) pc)%N).
  Proof.
    intros (A1 & A2 & A3 & A4) (B1 & B2 & B3 & B4). unfold combine_with. destruct (combine_classes_ok (block_classes b) (block_classes a)) as (m & -> & M1 & M2 & M3); auto.
    destruct (fold_put (fun _ old new => widen old new) (column_ranges b) (column_ranges a) A1 B1) as [R1 R2]. destruct (fold_put (fun _ c n => (c + n)%N) (pc_counts b) (pc_counts a) A3 B3) as [C1 C2].
    eexists. split; [reflexivity|]. cbn [column_ranges block_classes pc_counts]. split; [split; [exact R1|]; split; auto|]. split; [exact R2|]. split; [exact M3|].
    intros pc. unfold count_of, combine_counts. rewrite C2. destruct (nm_get pc (pc_counts a)), (nm_get pc (pc_counts b)); lia.
  Qed.
  (** ** Blocks *)
  Section Block.
    Context {I : Type} (step : N).
    (** The block that instruction [i] belongs to, and its index there. *)
    Lemma indexed_in (bs : list (bblock I)) : forall s o pc, In (o, pc) (indexed_start_pcs s bs) <-> exists l b r, bs = l ++ b :: r /\ o = s + length (flat_map instrs l) /\ pc = start_pc b.
    Proof.
      induction bs as [|b bs IH]; intros s o pc; cbn [indexed_start_pcs In].
      - split; [intros []|]. intros (l & b & r & X & _). destruct l; discriminate.
      - rewrite IH. split.
        + intros [[= <- <-]|(l & b' & r & -> & -> & ->)]; [exists [], b, bs; cbn; split; auto|]. exists (b :: l), b', r. cbn. rewrite app_length. split; auto. split; auto. lia.
        + intros (l & b' & r & E0 & -> & ->). destruct l as [|b1 l]; cbn in E0; injection E0 as -> E0; [left; cbn; f_equal; lia|right]. exists l, b', r. cbn. rewrite app_length. split; auto. split; auto. lia.
    Qed.
    Variable e : emp.
    Hypothesis He : emp_ok e.
    (** The partition recorded for a block; its cells are inside the block. *)
    Definition class_at (pc : N) : part cell := match nm_get pc (block_classes e) with Some p => p | None => mkPart [] 0 end.
    Lemma class_at_ok pc : part_ok (class_at pc).
    Proof.
      unfold class_at. destruct (nm_get pc (block_classes e)) as [p|] eqn:E0.
      - destruct He as (_ & _ & _ & H). rewrite Forall_forall in H. apply (H (pc, p)). now apply get_in.
      - split; cbn; [constructor|intros x i []|intros i Hi; lia].
    Qed.
    Lemma shifted_ok ip : exists q, shifted_class ord e ip = Some q /\ part_ok q /\
      forall u v, together q u v <-> fst ip <= fst u /\ fst ip <= fst v /\ together (class_at (snd ip)) (fst u - fst ip, snd u) (fst v - fst ip, snd v).
    Proof.
      unfold shifted_class. fold (class_at (snd ip)). destruct (map_elements_ok cell_eqb cell_eqb_eq ord ord_perm (fun c : cell => (fst c + fst ip, snd c)) (class_at (snd ip)) (class_at_ok _)) as (q & Q1 & Q2 & Q3).
      - intros [a b] [c d] _ _ [= H1 H2]. cbn in *. f_equal; lia.
      - exists q. split; [exact Q1|]. split; auto. intros u v. rewrite Q3. split.
        + intros ([a b] & [c d] & -> & -> & H). cbn [fst snd]. repeat split; try lia. now rewrite !Nat.add_sub.
        + intros (H1 & H2 & H3). exists (fst u - fst ip, snd u), (fst v - fst ip, snd v). cbn [fst snd]. rewrite !Nat.sub_add by auto. destruct u, v. auto.
    Qed.
    Lemma union_ok r : forall a, part_ok a -> Forall part_ok r -> (forall l q r1 x, a :: r = l ++ q :: r1 -> together q x x -> Forall (fun q' => ~ together q' x x) r1) ->
      exists p, fold_left (fun acc q => match acc with Some a => combine_parts cell_eqb ord a q | None => None end) r (Some a) = Some p /\ part_ok p /\ forall x y, together p x y <-> exists q, In q (a :: r) /\ together q x y.
    Proof.
      induction r as [|b r IH]; intros a Ha Hr Hd; cbn [fold_left].
      - exists a. split; auto. split; auto. intros x y. cbn. split; [exists a; auto|intros (q & [<-|[]] & H); auto].
      - inversion Hr as [|? ? Hb Hr']; subst. pose proof (combine_ok cell_eqb cell_eqb_eq ord ord_perm a b Ha Hb) as C. destruct (combine_parts cell_eqb ord a b) as [p|].
        + destruct C as (C1 & C2 & C3). destruct (IH p C1 Hr') as (p' & -> & P1 & P2).
          * intros l q r1 x E0 Hx. destruct l as [|q0 l]; cbn in E0; injection E0 as -> E0.
            -- apply C2 in Hx. destruct Hx as [Hx|Hx]; subst r1; [pose proof (Hd [] a (b :: r) x eq_refl Hx) as X; now inversion X|apply (Hd [a] b r x eq_refl Hx)].
            -- subst r. apply (Hd (a :: b :: l) q r1 x eq_refl Hx).
          * exists p'. split; auto. split; auto. intros x y. rewrite P2. split.
            -- intros (q & [<-|Hq] & H); [|exists q; cbn; auto]. apply C2 in H. destruct H; [exists a|exists b]; cbn; auto.
            -- intros (q & [<-|[<-|Hq]] & H); [exists p; cbn; rewrite C2; auto|exists p; cbn; rewrite C2; auto|exists q; cbn; auto].
        + exfalso. destruct C as (x & X & Y). pose proof (Hd [] a (b :: r) x eq_refl X) as Z. inversion Z. contradiction.
    Qed.
    Lemma ordpairs_split {A} (P : A -> A -> Prop) l : ForallOrdPairs P l -> forall l1 q r1, l = l1 ++ q :: r1 -> Forall (P q) r1.
    Proof.
      induction 1 as [|x l Hx Hl IH]; intros l1 q r1 E0; [destruct l1; discriminate|]. destruct l1 as [|y l1]; cbn in E0; injection E0 as -> E0; [now subst|]. eapply IH; eauto.
    Qed.
    Definition cells_inside (bs : list (bblock I)) : Prop := Forall (fun b => forall x, together (class_at (start_pc b)) x x -> fst x < length (instrs b)) bs.
    Lemma shifted_all bs : cells_inside bs -> forall s, exists qs, all_some (map (shifted_class ord e) (indexed_start_pcs s bs)) = Some qs /\ length qs = length bs /\ Forall part_ok qs /\
      (forall q x, In q qs -> together q x x -> s <= fst x < s + length (flat_map instrs bs)) /\
      ForallOrdPairs (fun q q' => forall x, together q x x -> together q' x x -> False) qs /\
      (forall u v, (exists q, In q qs /\ together q u v) <-> exists o pc, In (o, pc) (indexed_start_pcs s bs) /\ o <= fst u /\ o <= fst v /\ together (class_at pc) (fst u - o, snd u) (fst v - o, snd v)).
    Proof.
      induction 1 as [|b bs Hb Hbs IH]; intros s; cbn [indexed_start_pcs map all_some flat_map].
      - exists []. split; auto. split; auto. split; [constructor|]. split; [intros q x []|]. split; [constructor|]. intros u v. split; [intros (q & [] & _)|intros (o & pc & [] & _)].
      - destruct (shifted_ok (s, start_pc b)) as (q & -> & Q1 & Q2). destruct (IH (s + length (instrs b))) as (qs & -> & L & A & B & C & D). cbn [fst snd] in *.
        assert (Hq : forall x, together q x x -> s <= fst x < s + length (instrs b)). { intros x Hx. apply Q2 in Hx. destruct Hx as (H1 & _ & H2). apply Hb in H2. cbn in H2. lia. }
        exists (q :: qs). split; auto. split; [cbn; now rewrite L|]. split; [now constructor|]. split; [|split].
        + intros q' x [<-|Hin] Hx; rewrite app_length; [apply Hq in Hx; lia|apply (B _ _ Hin) in Hx; lia].
        + constructor; auto. apply Forall_forall. intros q' Hin x H1 H2. apply Hq in H1. apply (B _ _ Hin) in H2. lia.
        + intros u v. split.
          * intros (q' & [<-|Hin] & H); [exists s, (start_pc b); split; [now left|]; now apply Q2|]. destruct (proj1 (D u v)) as (o & pc & X & Y); [eauto|]. exists o, pc. split; [now right|auto].
          * intros (o & pc & [Ho|Hin] & HH); [injection Ho as <- <-; exists q; split; [now left|]; now apply Q2|]. destruct (proj2 (D u v)) as (q' & X & Y); [eauto|]. exists q'. split; [now right|auto].
    Qed.
    Lemma for_block_ok bs : bs <> [] -> cells_inside bs -> exists be, for_block ord step e bs = Some be /\ part_ok (be_classes be) /\ be_pcs be = flat_map (bb_pcs step) bs /\ keys_sorted (be_ranges be) /\
      (forall pc rs, nm_get pc (be_ranges be) = Some rs <-> (exists pc', In pc' (flat_map (bb_pcs step) bs) /\ pc = as_u32 pc') /\ exists rs0, nm_get pc (column_ranges e) = Some rs0 /\ rs = enumerate rs0) /\
      (forall u v, together (be_classes be) u v <-> exists l b r, bs = l ++ b :: r /\ length (flat_map instrs l) <= fst u /\ length (flat_map instrs l) <= fst v /\
         together (class_at (start_pc b)) (fst u - length (flat_map instrs l), snd u) (fst v - length (flat_map instrs l), snd v)).
    Proof.
      intros Hne Hin. unfold for_block. destruct (shifted_all bs Hin 0) as (qs & -> & L & A & B & C & D). destruct qs as [|q0 qs]; [destruct bs; [congruence|discriminate]|]. cbn [union_classes].
      inversion A as [|? ? A1 A2]; subst. destruct (union_ok qs q0 A1 A2) as (p & -> & P1 & P2).
      { intros l q r1 x E0 Hx. pose proof (ordpairs_split _ _ C l q r1 E0) as X. eapply Forall_impl; [|exact X]. cbn. eauto. }
      eexists. split; [reflexivity|]. cbn [be_pcs be_ranges be_classes]. split; auto. split; auto.
      match goal with |- keys_sorted (nm_collect ?l) /\ _ => destruct (collect_get l) as [G1 G2] end.
      { intros k v w Hv Hw. apply in_flat_map in Hv, Hw. destruct Hv as (pc1 & _ & Hv), Hw as (pc2 & _ & Hw). destruct (nm_get (as_u32 pc1) (column_ranges e)) as [r1|] eqn:E1; [|destruct Hv]. destruct (nm_get (as_u32 pc2) (column_ranges e)) as [r2|] eqn:E2; [|destruct Hw].
        destruct Hv as [[= <- <-]|[]], Hw as [[= Ek <-]|[]]. rewrite Ek in E2. congruence. }
      split; auto. split.
      - intros pc rs. rewrite G2, in_flat_map. split.
        + intros (pc' & H1 & H2). destruct (nm_get (as_u32 pc') (column_ranges e)) as [r1|] eqn:E1; [|destruct H2]. destruct H2 as [[= <- <-]|[]]. split; eauto.
        + intros ((pc' & H1 & ->) & rs0 & H2 & ->). exists pc'. split; auto. rewrite H2. now left.
      - intros u v. rewrite P2, D. split.
        + intros (o & pc & H1 & H2 & H3 & H4). apply indexed_in in H1. destruct H1 as (l & b & r & -> & -> & ->). exists l, b, r. auto.
        + intros (l & b & r & E0 & H2 & H3 & H4). exists (length (flat_map instrs l)), (start_pc b). split; auto. apply indexed_in. exists l, b, r. auto.
    Qed.
  End Block.
  (** ** Filtering *)
  Lemma big_filter (pred : cell -> bool) cl : NoDup (concat cl) -> NoDup (concat (big (map (filter pred) cl))).
  Proof.
    unfold big. induction cl as [|c cl IH]; cbn [map filter concat]; intros H; auto. apply nodup_app_inv in H. destruct H as (H1 & H2 & H3). destruct (Nat.ltb 1 (length (filter pred c))); auto. cbn [concat]. apply nodup_app_inv. split; [now apply NoDup_filter|]. split; auto.
    intros x Hx Hy. apply filter_In in Hx. apply in_concat in Hy. destruct Hy as (d & Hd & Hy). apply filter_In in Hd. destruct Hd as [Hd _]. apply in_map_iff in Hd. destruct Hd as (c' & <- & Hc'). apply filter_In in Hy. apply (H3 x); [tauto|]. apply in_concat. exists c'. tauto.
  Qed.
  Lemma filtered_ok pred be : part_ok (be_classes be) -> exists be', filtered ord pred be = Some be' /\ part_ok (be_classes be') /\ be_pcs be' = be_pcs be /\
    be_ranges be' = map (filter_ranges pred (be_pcs be)) (be_ranges be) /\
    (forall x y, x <> y -> (together (be_classes be') x y <-> together (be_classes be) x y /\ pred x = true /\ pred y = true)).
  Proof.
    intros Hp. unfold filtered. destruct (to_classes_ok cell_eqb cell_eqb_eq ord ord_perm (be_classes be) Hp) as (cl & -> & _ & N0 & _ & S0).
    pose proof (from_iter_spec cell_eqb cell_eqb_eq ord gord ord_perm gord_perm (map (filter pred) cl)) as F. pose proof (big_filter pred cl N0) as Nb. destruct (from_iter cell_eqb (map (filter pred) cl)) as [p|]; [|contradiction].
    destruct F as (F1 & _ & F2). eexists. split; [reflexivity|]. cbn [be_pcs be_ranges be_classes]. split; auto. split; auto. split; auto. intros x y Hxy. rewrite F2, <- S0. split.
    - intros (c & H1 & H2 & H3). apply filter_In in H1. destruct H1 as [H1 _]. apply in_map_iff in H1. destruct H1 as (c' & <- & H1). apply filter_In in H2, H3. split; [exists c'; tauto|tauto].
    - intros ((c & H1 & H2 & H3) & H4 & H5). exists (filter pred c). assert (X : In x (filter pred c)) by (apply filter_In; auto). assert (Y : In y (filter pred c)) by (apply filter_In; auto). split; auto. apply filter_In. split; [now apply in_map|].
      apply Nat.ltb_lt. destruct (filter pred c) as [|u [|v k]]; cbn; try lia; [destruct X|]. destruct X as [<-|[]], Y as [<-|[]]. congruence.
  Qed.
  Lemma pc_indices_in pcs pc i : In i (pc_indices pcs pc) <-> nth_error pcs i = Some pc.
  Proof.
    unfold pc_indices. rewrite in_map_iff. split.
    - intros ([j q] & <- & H). apply filter_In in H. destruct H as [H1 H2]. cbn in H2. apply N.eqb_eq in H2. subst. now apply in_enumerate in H1.
    - intros H. exists (i, pc). split; auto. apply filter_In. split; [now apply in_enumerate|]. apply N.eqb_refl.
  Qed.
  Lemma filter_ranges_in pred pcs pc (rs : list (N * N)) col r :
    In (col, r) (snd (filter_ranges pred pcs (pc, enumerate rs))) <-> nth_error rs col = Some r /\ forall i, nth_error pcs i = Some pc -> pred (i, col) = true.
  Proof.
    unfold filter_ranges. cbn [fst snd]. rewrite in_map_iff. split.
    - intros ([j [c q]] & [= -> ->] & H). apply filter_In in H. destruct H as [H1 H2]. apply in_enumerate in H1. cbn [fst] in H2. pose proof (nth_error_In _ _ H1) as H3. apply in_enumerate in H3. split; auto.
      assert (j = col). { clear - H1. unfold enumerate in H1. assert (G : forall (l : list (N * N)) s j, nth_error (combine (seq s (length l)) l) j = Some (col, r) -> col = s + j).
        { induction l as [|a l IH]; intros s [|j']; cbn; try discriminate; [intros [= <- _]; lia|]. intros X. apply IH in X. lia. } apply G in H1. lia. }
      subst j. intros i Hi. rewrite forallb_forall in H2. apply (H2 i). now apply pc_indices_in.
    - intros [H1 H2]. exists (col, (col, r)). split; auto. apply filter_In. split.
      + apply in_enumerate. unfold enumerate. clear H2. assert (G : forall (l : list (N * N)) s j, nth_error l j = Some r -> nth_error (combine (seq s (length l)) l) j = Some (s + j, r)).
        { induction l as [|a l IH]; intros s [|j']; cbn; try discriminate; [intros [= ->]; now rewrite Nat.add_0_r|]. intros X. rewrite (IH (S s) _ X). f_equal. f_equal. lia. } apply (G _ 0 _ H1).
      + cbn [fst]. apply forallb_forall. intros i Hi. apply H2. now apply pc_indices_in.
  Qed.
  (** ** Generated constraints *)
  Lemma concat_all {A B} (f : A -> option (list B)) l l' : option_map (@concat B) (all_some (map f l)) = Some l' -> forall b, In b l' <-> exists a bs, In a l /\ f a = Some bs /\ In b bs.
  Proof.
    destruct (all_some (map f l)) as [ls|] eqn:E0; [|discriminate]. intros [= <-] b. rewrite in_concat. split.
    - intros (bs & H1 & H2). apply (all_some_in _ _ _ E0) in H1. destruct H1 as (a & H1 & H3). eauto.
    - intros (a & bs & H1 & H2 & H3). exists bs. split; auto. apply (all_some_in _ _ _ E0). eauto.
  Qed.
  Lemma generate_ok {R} (mapper : cell -> option R) (val : R -> N) pcs be cs : part_ok (be_classes be) -> generate_constraints ord mapper pcs be = Some cs ->
    (Forall (eqc_holds val) cs <->
     (forall i pc rs col v r, nth_error pcs i = Some pc -> nm_get (as_u32 pc) (be_ranges be) = Some rs -> In (col, (v, v)) rs -> mapper (i, col) = Some r -> val r = v) /\
     (forall x y r s, together (be_classes be) x y -> mapper x = Some r -> mapper y = Some s -> val r = val s)).
  Proof.
    intros Hp Hg. unfold generate_constraints in Hg. destruct (range_constraints mapper pcs be) as [c1|] eqn:E1; [|discriminate]. destruct (equivalence_constraints ord mapper be) as [c2|] eqn:E2; [|discriminate]. injection Hg as <-.
    rewrite Forall_app. unfold range_constraints in E1. pose proof (concat_all _ _ _ E1) as H1. unfold equivalence_constraints in E2. destruct (to_classes_ok cell_eqb cell_eqb_eq ord ord_perm (be_classes be) Hp) as (cl & E3 & _ & N0 & _ & S0). rewrite E3 in E2. pose proof (concat_all _ _ _ E2) as H2.
    assert (D1 : forall i pc rs, nth_error pcs i = Some pc -> nm_get (as_u32 pc) (be_ranges be) = Some rs -> exists bs, range_constraints_of mapper be (i, pc) = Some bs /\ forall b, In b bs <-> exists a bs', In a rs /\ range_constraint mapper i a = Some bs' /\ In b bs').
    { intros i pc rs Hi Hr. unfold range_constraints_of. cbn [fst snd]. rewrite Hr. destruct (option_map (@concat (eqc R)) (all_some (map (range_constraint mapper i) rs))) as [bs|] eqn:E4.
      - exists bs. split; auto. now apply concat_all.
      - exfalso. destruct (all_some (map (range_constraint mapper i) rs)) as [bs|] eqn:E5; [discriminate|]. destruct (all_some (map (range_constraints_of mapper be) (enumerate pcs))) as [l|] eqn:E6; [|discriminate].
        assert (X : all_some (map (range_constraints_of mapper be) (enumerate pcs)) = None); [|congruence]. apply all_some_none. exists (i, pc). split; [now apply in_enumerate|]. unfold range_constraints_of. cbn [fst snd]. rewrite Hr, E5. reflexivity. }
    assert (D2 : forall c, In c cl -> exists bs, class_constraints mapper c = Some bs).
    { intros c Hc. destruct (class_constraints mapper c) as [bs|] eqn:E4; [eauto|]. exfalso. destruct (all_some (map (class_constraints mapper) cl)) as [l|] eqn:E5; [|discriminate].
      assert (X : all_some (map (class_constraints mapper) cl) = None); [|congruence]. apply all_some_none. eauto. }
    split.
    - intros [F1 F2]. rewrite Forall_forall in F1, F2. split.
      + intros i pc rs col v r Hi Hr Hin Hm. destruct (D1 i pc rs Hi Hr) as (bs & B1 & B2). apply (F1 (EqNum r v)). apply H1. exists (i, pc), bs. split; [now apply in_enumerate|]. split; auto. apply B2. exists (col, (v, v)), [EqNum r v]. split; auto. cbn. rewrite N.eqb_refl, Hm. auto.
      + intros x y r s Hxy Hr Hs. apply S0 in Hxy. destruct Hxy as (c & Hc & Hx & Hy). destruct (D2 c Hc) as (bs & Hb). destruct c as [|f c]; [destruct Hx|]. cbn [class_constraints] in Hb. destruct (mapper f) as [rf|] eqn:Ef; [|discriminate].
        assert (G : forall z t, In z (f :: c) -> mapper z = Some t -> val rf = val t).
        { intros z t [<-|Hz] Ht; [congruence|]. apply (F2 (EqRef rf t)). apply H2. exists (f :: c), bs. split; auto. split; [cbn; rewrite Ef; auto|]. apply (all_some_in _ _ _ Hb). exists z. split; auto. now rewrite Ht. }
        rewrite <- (G x r), <- (G y s); auto.
    - intros [G1 G2]. split; apply Forall_forall; intros c Hc.
      + apply H1 in Hc. destruct Hc as ([i pc] & bs & Hi & Hb & Hc). apply in_enumerate in Hi. unfold range_constraints_of in Hb. cbn [fst snd] in Hb. destruct (nm_get (as_u32 pc) (be_ranges be)) as [rs|] eqn:Er; [|injection Hb as <-; destruct Hc].
        apply (concat_all _ _ _ Hb) in Hc. destruct Hc as ([col [mn mx]] & bs' & Ha & Hb' & Hc). cbn in Hb'. destruct (N.eqb_spec mn mx) as [->|]; [|injection Hb' as <-; destruct Hc]. destruct (mapper (i, col)) as [r|] eqn:Em; [|discriminate]. injection Hb' as <-. destruct Hc as [<-|[]]. cbn. eapply G1; eauto.
      + apply H2 in Hc. destruct Hc as (cc & bs & Hcc & Hb & Hc). destruct cc as [|f cc]; [discriminate|]. cbn [class_constraints] in Hb. destruct (mapper f) as [rf|] eqn:Ef; [|discriminate]. apply (all_some_in _ _ _ Hb) in Hc. destruct Hc as (z & Hz & Hc).
        destruct (mapper z) as [t|] eqn:Et; [|discriminate]. injection Hc as <-. cbn. apply (G2 f z); auto. apply S0. exists (f :: cc). cbn. auto.
  Qed.
  (** ** Detection *)
  Lemma vgroup_in v x g v' y : (exists l, In (v', l) (vgroup_insert v x g) /\ In y l) <-> (v', y) = (v, x) \/ (exists l, In (v', l) g /\ In y l).
  Proof.
    induction g as [|[v0 l0] g IH]; cbn [vgroup_insert].
    - split.
      + intros (l & [[= <- <-]|[]] & [<-|[]]). now left.
      + intros [[= -> ->]|(l & [] & _)]. exists [x]. cbn. auto.
    - destruct (N.eqb_spec v v0) as [->|Hv].
      + split.
        * intros (l & [[= <- <-]|H] & Hy); [|right; exists l; split; auto; now right]. apply in_app_iff in Hy. destruct Hy as [Hy|[<-|[]]]; [right; exists l0; split; auto; now left|now left].
        * intros [[= -> ->]|(l & [[= <- <-]|H] & Hy)].
          -- exists (l0 ++ [x]). split; [now left|]. apply in_or_app. right. now left.
          -- exists (l0 ++ [x]). split; [now left|]. apply in_or_app. now left.
          -- exists l. split; auto. now right.
      + split.
        * intros (l & [[= <- <-]|H] & Hy); [right; exists l0; split; auto; now left|]. destruct (proj1 IH) as [X|(l' & X & Y)]; eauto. right. exists l'. split; auto. now right.
        * intros [X|(l & [[= <- <-]|H] & Hy)].
          -- destruct (proj2 IH (or_introl X)) as (l & A & B). exists l. split; auto. now right.
          -- exists l0. split; auto. now left.
          -- destruct (proj2 IH) as (l' & A & B); [right; eauto|]. exists l'. split; auto. now right.
  Qed.
  Lemma vgroup_keys_in v x g k : In k (map fst (vgroup_insert v x g)) -> k = v \/ In k (map fst g).
  Proof. induction g as [|[v0 l0] g IH]; cbn [vgroup_insert map]; [intros [<-|[]]; now left|]. destruct (v =? v0)%N; cbn [map fst In]; [tauto|]. intros [<-|H]; [tauto|]. destruct (IH H); tauto. Qed.
  Lemma vgroup_keys v x g : NoDup (map fst g) -> NoDup (map fst (vgroup_insert v x g)).
  Proof.
    induction g as [|[v0 l0] g IH]; cbn [vgroup_insert map fst]; intros Hn; [repeat constructor; intros []|]. destruct (N.eqb_spec v v0) as [->|Hv]; auto. apply NoDup_cons_iff in Hn. destruct Hn as [H1 H2]. cbn [map fst]. constructor; auto.
    intros X. apply vgroup_keys_in in X. destruct X as [->|]; auto.
  Qed.
  Lemma vgroup_perm v x g : Permutation (concat (map snd (vgroup_insert v x g))) (x :: concat (map snd g)).
  Proof.
    induction g as [|[v0 l0] g IH]; cbn [vgroup_insert map snd concat app]; auto. destruct (v =? v0)%N; cbn [map snd concat].
    - rewrite <- app_assoc. cbn [app]. symmetry. apply Permutation_middle.
    - rewrite IH. symmetry. apply Permutation_middle.
  Qed.
  Lemma block_cells_in rows v c : In (v, c) (block_cells rows) <-> cell_value rows c = Some v.
  Proof.
    unfold block_cells, cell_value. rewrite in_flat_map. split.
    - intros ([i r] & H1 & H2). apply in_map_iff in H2. destruct H2 as ([j w] & [= <- <-] & H2). apply in_enumerate in H1, H2. cbn [fst snd] in *. now rewrite H1.
    - destruct c as [i j]. cbn [fst snd]. destruct (nth_error rows i) as [r|] eqn:E0; [|discriminate]. intros H. exists (i, r). split; [now apply in_enumerate|]. apply in_map_iff. exists (j, v). split; auto. now apply in_enumerate.
  Qed.
  Lemma map_nodup_snd {A B} (f : A -> B) (l : list A) : (forall x y, In x l -> In y l -> f x = f y -> x = y) -> NoDup l -> NoDup (map f l).
  Proof.
    intros Hf. induction 1 as [|x l Hx Hn IH]; cbn; constructor.
    - intros X. apply in_map_iff in X. destruct X as (y & E0 & Hy). apply Hf in E0; [subst; auto|now right|now left].
    - apply IH. intros a b Ha Hb. apply Hf; now right.
  Qed.
  Lemma enumerate_nodup {A} (l : list A) : NoDup (enumerate l).
  Proof.
    unfold enumerate. generalize 0. induction l as [|a l IH]; intros s; cbn; constructor; [|apply IH]. intros X. assert (G : forall (l : list A) s i x, In (i, x) (combine (seq s (length l)) l) -> s <= i).
    { clear. induction l as [|a l IH]; intros s i x; cbn; [intros []|]. intros [[= <- _]|H]; [lia|]. apply IH in H. lia. } apply G in X. lia.
  Qed.
  Lemma block_cells_nodup rows : NoDup (map snd (block_cells rows)).
  Proof.
    unfold block_cells. assert (Hn : NoDup (map fst (enumerate rows))). { apply map_nodup_snd; [|apply enumerate_nodup]. intros [i r] [j q] H1 H2 E0. cbn in E0. subst. apply in_enumerate in H1, H2. congruence. }
    revert Hn. generalize (enumerate rows) as l. induction l as [|[i r] l IH]; cbn [flat_map map]; intros Hn; [constructor|]. apply NoDup_cons_iff in Hn. destruct Hn as [Hi Hn]. rewrite map_app. apply nodup_app_inv. split; [|split; [now apply IH|]].
    - rewrite map_map. cbn [snd]. apply map_nodup_snd; [|apply enumerate_nodup]. intros [j v] [k w] H1 H2 [= E0]. cbn in E0. subst. apply in_enumerate in H1, H2. congruence.
    - intros c H1 H2. rewrite map_map in H1. apply in_map_iff in H1. destruct H1 as ([j v] & <- & _). apply in_map_iff in H2. destruct H2 as ([w c'] & E0 & H2). apply in_flat_map in H2. destruct H2 as ([i' r'] & H2 & H3). apply in_map_iff in H3. destruct H3 as ([j' v'] & [= <- <-] & _). cbn in E0. injection E0 as -> _.
      apply Hi. apply in_map_iff. now exists (i, r').
  Qed.
  Lemma instance_ok rows : exists p, instance_classes gord rows = Some p /\ part_ok p /\ forall x y, x <> y -> (together p x y <-> exists v, cell_value rows x = Some v /\ cell_value rows y = Some v).
  Proof.
    unfold instance_classes.
    assert (G : forall l : list (N * cell), NoDup (map snd l) -> let g := fold_left (fun g vx => vgroup_insert (fst vx) (snd vx) g) l [] in (forall v x, (exists c, In (v, c) g /\ In x c) <-> In (v, x) l) /\ NoDup (map fst g) /\ NoDup (concat (map snd g))).
    { induction l as [|[v x] l IH] using rev_ind; intros Hn; cbn zeta; [cbn; split; [|split; constructor]; intros; split; [intros (c & [] & _)|intros []]|]. rewrite map_app in Hn. apply nodup_app_inv in Hn. destruct Hn as (Hn1 & _ & Hn2). destruct (IH Hn1) as (A & B & C).
      rewrite fold_left_app. cbn [fold_left fst snd]. split; [|split].
      - intros v' y. rewrite vgroup_in, A, in_app_iff. cbn [In]. split; [intros [[= -> ->]|H]; auto|]. intros [H|[[= -> ->]|[]]]; auto.
      - now apply vgroup_keys.
      - eapply Permutation_NoDup; [symmetry; apply vgroup_perm|]. constructor; auto. intros X. apply in_concat in X. destruct X as (c & X & Y). apply in_map_iff in X. destruct X as ([v' c'] & <- & X). assert (Z : In (v', x) l) by (apply A; eauto). apply (Hn2 x); [apply in_map_iff; now exists (v', x)|now left]. }
    destruct (G (block_cells rows) (block_cells_nodup rows)) as (A & B & C). set (g := fold_left _ (block_cells rows) []) in *.
    pose proof (from_iter_spec cell_eqb cell_eqb_eq ord gord ord_perm gord_perm (gord (map snd g))) as F.
    assert (Hc : NoDup (concat (big (gord (map snd g))))).
    { eapply Permutation_NoDup; [apply perm_concat, big_perm; symmetry; apply gord_perm|]. replace (map snd g) with (map (filter (fun _ : cell => true)) (map snd g)); [apply big_filter; auto|]. rewrite <- (map_id (map snd g)) at 2. apply map_ext. intros c. clear. induction c as [|a c IH]; cbn; auto. now rewrite IH. }
    destruct (from_iter cell_eqb (gord (map snd g))) as [p|]; [|contradiction]. exists p. split; auto. destruct F as (F1 & _ & F2). split; auto. intros x y Hxy. rewrite F2. split.
    - intros (c & H1 & H2 & H3). apply filter_In in H1. destruct H1 as [H1 _]. apply (Permutation_in _ (gord_perm _)) in H1. apply in_map_iff in H1. destruct H1 as ([v c'] & <- & H1). cbn [snd] in *. exists v. split; apply block_cells_in, A; eauto.
    - intros (v & H1 & H2). apply block_cells_in in H1, H2. apply A in H1, H2. destruct H1 as (c & C1 & C2), H2 as (d & D1 & D2).
      assert (d = c). { clear - B C1 D1. induction g as [|[k l] g IH]; [destruct C1|]. cbn in B. apply NoDup_cons_iff in B. destruct B as [B1 B2]. destruct C1 as [[= -> ->]|C1], D1 as [D1|D1]; [congruence| | |auto].
        - exfalso. apply B1. apply in_map_iff. now exists (v, d).
        - injection D1 as -> ->. exfalso. apply B1. apply in_map_iff. now exists (v, c). }
      subst d. exists c. split; auto. apply filter_In. split; [apply (Permutation_in _ (Permutation_sym (gord_perm _))); apply in_map_iff; now exists (v, c)|].
      apply Nat.ltb_lt. destruct c as [|u [|w c]]; cbn; try lia; [destruct C2|]. destruct C2 as [<-|[]], D2 as [<-|[]]. congruence.
  Qed.
  Lemma detect_classes_ok instances : instances <> [] -> exists p, detect_classes ord gord instances = Some p /\ part_ok p /\
    forall x y, x <> y -> (together p x y <-> forall rows, In rows instances -> exists v, cell_value rows x = Some v /\ cell_value rows y = Some v).
  Proof.
    intros Hne. unfold detect_classes.
    destruct (all_some_ok (instance_classes gord) (fun rows p => part_ok p /\ forall x y, x <> y -> (together p x y <-> exists v, cell_value rows x = Some v /\ cell_value rows y = Some v)) instances) as (ps & -> & H2).
    { intros rows _. apply instance_ok. }
    destruct (parallel_ok cell_eqb cell_eqb_eq ord gord ord_perm gord_perm CHUNK_SIZE) with (fuel := length ps) (ps := ps) as (p & P1 & P2 & P3); auto.
    - apply Nat.leb_le. reflexivity.
    - intros ->. inversion H2. subst. congruence.
    - clear - H2. induction H2 as [|a b l l' [A _] _ IH]; auto.
    - exists p. split; [exact P1|]. split; auto. intros x y Hxy. rewrite (P3 x y Hxy). unfold all_together. clear - H2 Hxy. induction H2 as [|rows q l l' [A B] _ IH]; cbn [In]; [tauto|]. split.
      + intros H rows' [<-|Hr]; [apply B; auto; apply H; now left|apply (proj1 IH); auto].
      + intros H q' [<-|Hq]; [apply B; auto|apply (proj2 IH); auto].
  Qed.
End EmpFacts.
(** ** Percentiles *)
Lemma insert_sorted_perm x l : Permutation (insert_sorted x l) (x :: l).
Proof. induction l as [|y l IH]; cbn; auto. destruct (x <=? y)%N; auto. rewrite IH. constructor. Qed.
Lemma sort_perm l : Permutation (sort_values l) l.
Proof. induction l as [|x l IH]; cbn; auto. rewrite insert_sorted_perm. now constructor. Qed.
Lemma insert_sorted_nth x l : (forall i j a b, i <= j -> nth_error l i = Some a -> nth_error l j = Some b -> (a <= b)%N) ->
  forall i j a b, i <= j -> nth_error (insert_sorted x l) i = Some a -> nth_error (insert_sorted x l) j = Some b -> (a <= b)%N.
Proof.
  induction l as [|y l IH]; cbn [insert_sorted]; intros H.
  - intros i j a b L Hi Hj. destruct i as [|i], j as [|j]; cbn in *; try congruence; try lia; try (destruct i; discriminate); try (destruct j; discriminate). injection Hi as <-. injection Hj as <-. lia.
  - assert (Hl : forall i j a b, i <= j -> nth_error l i = Some a -> nth_error l j = Some b -> (a <= b)%N) by (intros i j a b L Hi Hj; apply (H (S i) (S j)); auto; lia).
    assert (Hy : forall b, In b l -> (y <= b)%N). { intros b Hb. apply In_nth_error in Hb. destruct Hb as [j Hj]. apply (H 0 (S j) y b); auto. lia. }
    destruct (N.leb_spec x y) as [L0|L0].
    + intros [|i] [|j] a b L Hi Hj; cbn in Hi, Hj; try lia.
      * injection Hi as <-. injection Hj as <-. lia.
      * injection Hi as <-. apply nth_error_In in Hj. destruct Hj as [<-|Hj]; auto. apply Hy in Hj. lia.
      * apply (H i j); auto. lia.
    + intros [|i] [|j] a b L Hi Hj; cbn in Hi, Hj; try lia; [injection Hi as <-; injection Hj as <-; lia| |apply (IH Hl i j); auto; lia].
      injection Hi as <-. apply nth_error_In in Hj. apply (Permutation_in _ (insert_sorted_perm x l)) in Hj. destruct Hj as [<-|Hj]; auto. lia.
Qed.
Lemma sort_nth l : forall i j a b, i <= j -> nth_error (sort_values l) i = Some a -> nth_error (sort_values l) j = Some b -> (a <= b)%N.
Proof. induction l as [|x l IH]; cbn; [intros i j a b _ Hi; destruct i; discriminate|]. now apply insert_sorted_nth. Qed.
Lemma filter_perm {A} (f : A -> bool) l l' : Permutation l l' -> Permutation (filter f l) (filter f l').
Proof. induction 1; cbn [filter]; auto; repeat (destruct (f _)); auto; try now constructor. etransitivity; eauto. Qed.
Lemma count_below (s : list N) k a (f : N -> bool) : (forall j b, k <= j -> nth_error s j = Some b -> f b = false) -> nth_error s k = Some a -> length (filter f s) <= k.
Proof.
  revert k. induction s as [|x s IH]; intros [|k] H Hk; cbn [nth_error] in Hk; try discriminate.
  - injection Hk as ->. cbn [filter]. rewrite (H 0 a) by (auto; lia). assert (X : filter f s = []); [|rewrite X; cbn; lia].
    assert (G : forall b, In b s -> f b = false). { intros b Hb. apply In_nth_error in Hb. destruct Hb as [j Hj]. apply (H (S j)); auto. lia. }
    clear - G. induction s as [|y s IH]; cbn; auto. rewrite (G y (or_introl eq_refl)). apply IH. intros b Hb. apply G. now right.
  - cbn [filter]. assert (L : length (filter f s) <= k). { apply (IH k); auto. intros j b Hj Hb. apply (H (S j)); auto. lia. } destruct (f x); cbn; lia.
Qed.
Lemma count_above (s : list N) k a (f : N -> bool) : (forall j b, j <= k -> nth_error s j = Some b -> f b = false) -> nth_error s k = Some a -> length (filter f s) + k < length s.
Proof.
  revert k. induction s as [|x s IH]; intros [|k] H Hk; cbn [nth_error] in Hk; try discriminate.
  - cbn [filter]. rewrite (H 0 x) by (auto; lia). assert (L : length (filter f s) <= length s) by (clear; induction s as [|y s IH]; cbn; auto; destruct (f y); cbn; lia). cbn. lia.
  - cbn [filter]. rewrite (H 0 x) by (auto; lia). assert (L : length (filter f s) + k < length s). { apply IH; auto. intros j b Hj Hb. apply (H (S j)); auto. lia. } cbn. lia.
Qed.
Lemma filter_split {A} (f : A -> bool) l : length (filter f l) + length (filter (fun x => negb (f x)) l) = length l.
Proof. induction l as [|x l IH]; cbn [filter]; auto. destruct (f x); cbn; lia. Qed.
Lemma percentile_ok values : values <> [] -> exists lo hi, percentile_range values = Some (lo, hi) /\ In lo values /\ In hi values /\ (lo <= hi)%N /\
  100 * length (filter (fun v => (v <? lo)%N) values) <= length values < 100 * length (filter (fun v => (v <=? lo)%N) values) /\
  100 * length (filter (fun v => (hi <? v)%N) values) < length values + 100 /\ 100 * length (filter (fun v => (hi <? v)%N) values) <= length values <= 100 * length (filter (fun v => (hi <=? v)%N) values).
Proof.
  intros Hne. unfold percentile_range. set (s := sort_values values). pose proof (sort_perm values) as Hp. fold s in Hp. pose proof (Permutation_length Hp) as Hl.
  assert (Hpos : 0 < length values) by (destruct values; [congruence|cbn; lia]).
  pose proof (Nat.div_mod (length s) 100 ltac:(lia)) as D1. pose proof (Nat.mod_upper_bound (length s) 100 ltac:(lia)) as M1.
  pose proof (Nat.div_mod (length s * 99) 100 ltac:(lia)) as D2. pose proof (Nat.mod_upper_bound (length s * 99) 100 ltac:(lia)) as M2.
  set (i := length s / 100) in *. set (j := length s * 99 / 100) in *.
  destruct (nth_error s i) as [lo|] eqn:Ei; [|apply nth_error_None in Ei; lia]. destruct (nth_error s j) as [hi|] eqn:Ej; [|apply nth_error_None in Ej; lia].
  exists lo, hi. split; auto. split; [apply (Permutation_in _ Hp); now apply nth_error_In in Ei|]. split; [apply (Permutation_in _ Hp); now apply nth_error_In in Ej|].
  rewrite <- !(Permutation_length (filter_perm _ _ _ Hp)).
  assert (L1 : length (filter (fun v => (v <? lo)%N) s) <= i). { apply (count_below s i lo); auto. intros k b Hk Hb. apply N.ltb_ge. eapply sort_nth; eauto. }
  assert (L2 : length (filter (fun v => (hi <? v)%N) s) + j < length s). { apply (count_above s j hi); auto. intros k b Hk Hb. apply N.ltb_ge. eapply sort_nth; eauto. }
  assert (L3 : i < length (filter (fun v => (v <=? lo)%N) s)).
  { pose proof (filter_split (fun v => (v <=? lo)%N) s) as X. assert (Y : length (filter (fun v => negb (v <=? lo)%N) s) + i < length s); [|lia]. apply (count_above s i lo); auto. intros k b Hk Hb. apply negb_false_iff, N.leb_le. eapply sort_nth; eauto. }
  assert (L4 : length s <= j + length (filter (fun v => (hi <=? v)%N) s)).
  { pose proof (filter_split (fun v => (hi <=? v)%N) s) as X. assert (Y : length (filter (fun v => negb (hi <=? v)%N) s) <= j); [|lia]. apply (count_below s j hi); auto. intros k b Hk Hb. apply negb_false_iff, N.leb_le. eapply sort_nth; eauto. }
  split; [|lia].
  destruct (Nat.le_gt_cases i j); [eapply sort_nth; eauto|]. assert (length s = 1) by lia. replace i with 0 in Ei by lia. replace j with 0 in Ej by lia. rewrite Ei in Ej. injection Ej as ->. lia.
Qed.
Lemma nth_error_nth_d {A} (l : list A) i d : i < length l -> nth_error l i = Some (nth i l d).
Proof. revert i. induction l as [|x l IH]; intros [|i]; cbn; intros H; try lia; auto. apply IH. lia. Qed.
