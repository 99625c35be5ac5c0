(** C64: the cache of artifacts never changes answers, whatever happens to it. *)
From Coq Require Import Arith NArith Bool List Ascii String Lia.
From Verif Require Import NumModel JsonModel BlocksModel CacheModel CacheSpec CacheFacts.
Import ListNotations.
Local Open Scope list_scope.

Section Props.
  Context {world apcs program : Type}.
  Variable escape : N -> text.
  Variable exe : world -> list N.
  Variable digest : list (list N) -> N.
  Variable encode_apcs : apcs -> list N.
  Variable decode_apcs : list N -> option apcs.
  Variable encode_program : program -> list N.
  Variable decode_program : list N -> option program.
  Variable selects : select_args -> world -> apcs -> Prop.
  Variable sets_up : world -> apcs -> program -> Prop.
  Notation happens := (happens escape exe digest encode_apcs decode_apcs encode_program decode_program selects sets_up).
  Notation history := (history escape exe digest encode_apcs decode_apcs encode_program decode_program selects sets_up).
  Notation could_answer := (could_answer selects sets_up).
  Notation hashed := (hashed escape exe digest).

  (** In every history of commands, interruptions at any point and damage to files, every command that finishes
      answers what it could have answered without a cache. *)
  Theorem C64_answers : escaping_ok escape -> codec_ok encode_apcs decode_apcs -> codec_ok encode_program decode_program ->
    forall l fs, history no_files l fs ->
    no_collision digest (flat_map hashed (used l)) -> depends_on_exe exe selects sets_up (map fst (used l)) ->
    forall dir w c r, In (Finished dir w c r) l -> could_answer w c r.
  Proof.
    intros He Ha Hp l fs H Hc Hd. apply (history_good _ _ _ _ _ _ _ _ _ He Ha Hp (used l) Hc Hd no_files l fs H); [apply incl_refl|apply no_files_good].
  Qed.
  (** After every such history the next command can be run to its end. *)
  Theorem C64_recovers : escaping_ok escape -> codec_ok encode_apcs decode_apcs -> codec_ok encode_program decode_program ->
    forall l fs dir w c, history no_files l fs ->
    no_collision digest (flat_map hashed ((w, c) :: used l)) -> depends_on_exe exe selects sets_up (w :: map fst (used l)) ->
    accepted c = true -> (forall a, exists r, selects a w r) -> (forall a r, selects a w r -> exists p, sets_up w r p) ->
    exists r fs', happens fs (Finished dir w c r) fs' /\ could_answer w c r.
  Proof.
    intros He Ha Hp l fs dir w c H Hc Hd Hacc H1 H2.
    pose proof (history_good _ _ _ _ _ _ _ _ _ He Ha Hp ((w, c) :: used l) Hc Hd no_files l fs H ltac:(intros u Hu; now right) (no_files_good _ _ _ _ _ _ _ _)) as [G _].
    destruct (command_runs escape exe digest encode_apcs decode_apcs encode_program decode_program selects sets_up fs dir w c Hacc H1) as (ops & r & Hr).
    { intros r [S1|S1]; [now apply (H2 _ _ S1)|]. apply (load_select _ _ _ _ _ _ _ _ He Ha ((w, c) :: used l) Hc Hd _ _ _ _ _ G) in S1; [|now left]. now apply (H2 _ _ S1). }
    exists r, (apply ops fs). split; [now constructor|].
    now apply (run_command_good _ _ _ _ _ _ _ _ _ He Ha Hp ((w, c) :: used l) Hc Hd fs dir w c ops r 0 G ltac:(now left)).
  Qed.
  (** From any files whatever: what a finished command has answered is answered again, to all commands with the
      same arguments up to the setup, until files are damaged, even if the build could give other results; and
      nothing is written then.  Hashes need not be different. *)
  Theorem C64_reused : codec_ok encode_apcs decode_apcs -> codec_ok encode_program decode_program ->
    forall fs d w c r fs1 l fs2 w' c' r' fs3,
    happens fs (Finished (Some d) w c r) fs1 -> history fs1 l fs2 -> undamaged l ->
    same_stages c c' -> exe w = exe w' -> happens fs2 (Finished (Some d) w' c' r') fs3 ->
    r' = r /\ fs3 = fs2.
  Proof.
    intros Ha Hp fs d w c r fs1 l fs2 w' c' r' fs3 H1 H2 Hl Hs Hw H3.
    apply (finished_entry _ _ _ _ _ _ _ _ _ Ha Hp) in H1. apply (history_keeps _ _ _ _ _ _ _ _ _ _ _ _ _ _ _ _ H2 Hl) in H1.
    now apply (entry_again _ _ _ _ _ _ _ _ _ _ _ _ _ _ _ _ _ _ H1 Hs Hw H3).
  Qed.
  (** Without a directory for artifacts, no file is read or written. *)
  Theorem C64_no_directory : forall fs w c fs',
    (forall r, happens fs (Finished None w c r) fs' -> fs' = fs /\ could_answer w c r) /\ (happens fs (Interrupted None w c) fs' -> fs' = fs).
  Proof. intros fs w c fs'. split; [intros r; apply quiet|apply quiet_interrupted]. Qed.
  (** The names of files depend on all arguments of their stages: equal texts are of equal arguments. *)
  Theorem C64_arguments : escaping_ok escape ->
    (forall a b, show_select escape a = show_select escape b -> a = b) /\
    (forall a b, show_setup escape a = show_setup escape b -> a = b).
  Proof. intros He. split; intros a b; [now apply select_text_inj|now apply setup_text_inj]. Qed.
End Props.
(** This is true of the texts that Rust prints. *)
Theorem C64_escape : forall printable, escaping_ok (escape_debug printable).
Proof. exact escape_debug_ok. Qed.
(** Commands that execute a program have no superblocks, and superblocks are selected by cells. *)
Theorem C64_accepted : forall c, accepted c = true ->
  (forall a, setup_of c = Some a -> (superblocks (s_generate (u_select a)) <= 1)%N) /\
  ((1 < superblocks (s_generate (select_of c)))%N -> pgo (select_of c) = PgoCell).
Proof.
  intros c H. unfold accepted, validate_select_args in H. apply andb_true_iff in H. destruct H as [H1 H2]. split.
  - intros a Ha. rewrite (setup_select _ _ Ha) in *. destruct c; try discriminate; cbn [andb] in H2; destruct (N.ltb_spec 1 (superblocks (s_generate (u_select a)))); try discriminate; lia.
  - intros H. destruct (N.ltb_spec 1 (superblocks (s_generate (select_of c)))); [|lia]. now destruct (pgo (select_of c)).
Qed.

(** ** A concrete case: the precompiles are the blocks of the program *)
Definition ex_world := (list N * list N)%type.
Definition ex_exe (w : ex_world) : list N := fst w.
Definition ex_starts (w : ex_world) : list N :=
  map start_pc (collect_basic_blocks (N.eqb 99) (fun _ => true) (fun pc => existsb (N.eqb pc) (snd w)) 0 4 (fst w)).
Definition ex_encode (l : list N) : list N := N.of_nat (List.length l) :: l.
Definition ex_decode (l : list N) : option (list N) := match l with n :: l => if (n =? N.of_nat (List.length l))%N then Some l else None | [] => None end.
Definition ex_selects (a : select_args) (w : ex_world) (r : list N) : Prop := r = ex_starts w.
Definition ex_sets_up (w : ex_world) (r p : list N) : Prop := p = r ++ fst w.
Definition ex_digest (l : list (list N)) : N := fold_left (fun h b => (h * 512 + b + 1) mod 1000003)%N (flat_map (fun v => 511%N :: v) l) 0%N.
Definition ex_escape := escape_debug (fun c => (32 <=? c)%N).
Notation ex_happens := (happens ex_escape ex_exe ex_digest ex_encode ex_decode ex_encode ex_decode ex_selects ex_sets_up).
Notation ex_history := (history ex_escape ex_exe ex_digest ex_encode ex_decode ex_encode ex_decode ex_selects ex_sets_up).
Definition ex_select : select_args := mkSelectArgs (mkGenerateArgs (mkProfileArgs (txt "guest") (Some 10%N)) None None (Some 3%N) false 1) 5 0 PgoCell None.
Definition ex_prove : command := Prove (mkSetupArgs ex_select) (Some 7%N) false true None.
Definition ex_execute : command := Execute (mkSetupArgs ex_select) None (Some (txt "metrics.json")).
Definition ex_dir := Some (txt "artifacts").
Definition ex_w1 : ex_world := ([1; 1; 99; 1]%N, []).
Definition ex_w2 : ex_world := ([1; 1; 99; 1]%N, [4%N]).
Lemma ex_codec : codec_ok ex_encode ex_decode.
Proof.
  intros x. split.
  - cbn. now rewrite N.eqb_refl.
  - intros [|k] H; auto. cbn in H |- *. destruct (N.eqb_spec (N.of_nat (List.length x)) (N.of_nat (List.length (firstn k x)))) as [E|]; auto.
    apply Nat2N.inj in E. rewrite firstn_length in E. lia.
Qed.
Definition values_eqb (x y : list (list N)) : bool := if list_eq_dec (list_eq_dec N.eq_dec) x y then true else false.
Definition no_collision_b (l : list (list (list N))) : bool :=
  forallb (fun x => forallb (fun y => negb (ex_digest x =? ex_digest y)%N || values_eqb x y) l) l.
Lemma no_collision_true l : no_collision_b l = true -> no_collision ex_digest l.
Proof.
  intros H x y Hx Hy E. unfold no_collision_b in H. rewrite forallb_forall in H. apply H in Hx. rewrite forallb_forall in Hx. apply Hx in Hy.
  rewrite E, N.eqb_refl in Hy. cbn in Hy. unfold values_eqb in Hy. destruct (list_eq_dec (list_eq_dec N.eq_dec) x y); congruence.
Qed.
(** Proving is interrupted while the program is written, and executing goes on with the precompiles that were saved. *)
Definition ex_event := @event ex_world (list N) (list N).
Definition ex_l : list ex_event := [Interrupted ex_dir ex_w1 ex_prove; Finished ex_dir ex_w1 ex_execute (Ready ([0; 12] ++ [1; 1; 99; 1])%N)].
Definition ex_hash (args : text) : text := stage_hash ex_exe ex_digest args ex_w1.
Definition ex_ops : list op :=
  save_cached ex_dir (txt "select") (ex_hash (show_select ex_escape ex_select)) (ex_encode [0; 12]%N) ++
  save_cached ex_dir (txt "setup") (ex_hash (show_setup ex_escape (mkSetupArgs ex_select))) (ex_encode ([0; 12] ++ [1; 1; 99; 1])%N).
Lemma ex_runs c : c = ex_prove \/ c = ex_execute ->
  run_command ex_escape ex_exe ex_digest ex_encode ex_decode ex_encode ex_decode ex_selects ex_sets_up ex_dir ex_w1 no_files c ex_ops (Ready ([0; 12] ++ [1; 1; 99; 1])%N).
Proof.
  intros H. apply (run_others _ _ _ _ _ _ _ _ _ _ _ _ c (mkSetupArgs ex_select)); [destruct H as [-> | ->]; reflexivity|destruct H as [-> | ->]; reflexivity|].
  apply (setup_miss ex_escape ex_exe ex_digest ex_encode ex_decode ex_encode ex_decode ex_selects ex_sets_up ex_dir ex_w1 no_files (mkSetupArgs ex_select)
    (save_cached ex_dir (txt "select") (ex_hash (show_select ex_escape ex_select)) (ex_encode [0; 12]%N)) [0; 12]%N); [reflexivity| |reflexivity].
  exact (select_miss ex_escape ex_exe ex_digest ex_encode ex_decode ex_selects ex_dir ex_w1 no_files ex_select [0; 12]%N eq_refl eq_refl).
Qed.
Example C64_history_example : exists fs, ex_history no_files ex_l fs /\
  no_collision ex_digest (flat_map (hashed ex_escape ex_exe ex_digest) (used ex_l)) /\ depends_on_exe ex_exe ex_selects ex_sets_up (map fst (used ex_l)) /\
  load_cached ex_decode fs ex_dir (txt "setup") (ex_hash (show_setup ex_escape (mkSetupArgs ex_select))) = Some ([0; 12] ++ [1; 1; 99; 1])%N.
Proof.
  eexists. split; [|split; [|split]].
  - eapply history_cons; [|eapply history_cons; [|apply history_nil]].
    + apply happens_interrupted. exact (stopped_late ex_escape ex_exe ex_digest ex_encode ex_decode ex_encode ex_decode ex_selects ex_sets_up ex_dir ex_w1 no_files ex_prove
        ex_ops (Ready ([0; 12] ++ [1; 1; 99; 1])%N) 7 (ex_runs _ (or_introl eq_refl))).
    + apply happens_finished. apply (run_others _ _ _ _ _ _ _ _ _ _ _ _ ex_execute (mkSetupArgs ex_select)); [reflexivity|reflexivity|].
      apply setup_miss with (r := [0; 12]%N); [vm_compute; reflexivity| |reflexivity]. apply select_hit. vm_compute. reflexivity.
  - apply no_collision_true. vm_compute. reflexivity.
  - intros w w' [<-|[<-|[]]] [<-|[<-|[]]] _; split; reflexivity.
  - vm_compute. reflexivity.
Qed.
(** The same command again. *)
Example C64_reused_example : exists fs1 fs3,
  ex_happens no_files (Finished ex_dir ex_w1 ex_prove (Ready ([0; 12] ++ [1; 1; 99; 1])%N)) fs1 /\
  ex_happens fs1 (Finished ex_dir ex_w1 ex_execute (Ready ([0; 12] ++ [1; 1; 99; 1])%N)) fs3 /\ same_stages ex_prove ex_execute.
Proof.
  eexists _, _. split; [|split; [|split; reflexivity]].
  - apply happens_finished. apply ex_runs. now left.
  - apply happens_finished. apply (run_others _ _ _ _ _ _ _ _ _ _ _ _ ex_execute (mkSetupArgs ex_select)); [reflexivity|reflexivity|].
    apply setup_hit. vm_compute. reflexivity.
Qed.
(** The results depend on more than the executable: the blocks end at the jump destinations of the ELF file, which
    are not in it.  With two guest programs of the same executable, answers are wrong. *)
Theorem C64_answers_refuted : exists l fs, ex_history no_files l fs /\
  no_collision ex_digest (flat_map (hashed ex_escape ex_exe ex_digest) (used l)) /\
  exists dir w c r, In (Finished dir w c r) l /\ ~ could_answer ex_selects ex_sets_up w c r.
Proof.
  exists [Finished ex_dir ex_w1 (SelectApcs ex_select) (Selected [0; 12]%N); Finished ex_dir ex_w2 (SelectApcs ex_select) (Selected [0; 12]%N)].
  eexists. split; [|split].
  - eapply history_cons; [|eapply history_cons; [|apply history_nil]].
    + apply happens_finished. apply run_select_apcs; [reflexivity|]. apply select_miss; reflexivity.
    + apply happens_finished. apply run_select_apcs; [reflexivity|]. apply select_hit. vm_compute. reflexivity.
  - apply no_collision_true. vm_compute. reflexivity.
  - exists ex_dir, ex_w2, (SelectApcs ex_select), (Selected [0; 12]%N). split; [right; now left|]. intros H. inversion H as [a r Hs|]; subst. discriminate Hs.
Qed.
Example C64_accepted_example : accepted ex_prove = true /\ accepted (SelectApcs (mkSelectArgs (mkGenerateArgs (mkProfileArgs (txt "guest") None) None None None false 4) 5 0 PgoCell None)) = true /\
  accepted (SetUp (mkSetupArgs (mkSelectArgs (mkGenerateArgs (mkProfileArgs (txt "guest") None) None None None false 4) 5 0 PgoCell None))) = false.
Proof. repeat split. Qed.
(** A text with a quotation mark and something that looks like the next argument. *)
Example C64_arguments_example :
  show_profile ex_escape (mkProfileArgs (txt "a" ++ [34%N] ++ txt ", profile_input: Some(1) }") None) <> show_profile ex_escape (mkProfileArgs (txt "a") (Some 1%N)).
Proof. intros H. vm_compute in H. discriminate. Qed.

Print Assumptions C64_answers.
Print Assumptions C64_recovers.
Print Assumptions C64_reused.
Print Assumptions C64_no_directory.
Print Assumptions C64_arguments.
Print Assumptions C64_escape.
Print Assumptions C64_accepted.
Print Assumptions C64_answers_refuted.
