(* C106 *)
From Coq Require Import String Ascii.
From Verif Require Import Base PluginModel PluginSpec.
Open Scope string_scope.

Lemma slash_get d : ends_with_slash d = match String.get (pred (String.length d)) d with Some c => Ascii.eqb c "/" | None => false end.
Proof.
  induction d as [|c d IH]; [reflexivity|]. destruct d as [|c' d]; [reflexivity|].
  change (ends_with_slash (String c (String c' d))) with (ends_with_slash (String c' d)). rewrite IH. cbn [String.length pred String.get]. destruct (String.length d); reflexivity.
Qed.
Lemma get_last d : String.get (pred (String.length d)) d = None -> d = "".
Proof.
  induction d as [|c d IH]; [reflexivity|]. destruct d as [|c' d]; [discriminate|].
  intros H. exfalso. cbn [String.length pred String.get] in H, IH.
  specialize (IH H). discriminate.
Qed.
Lemma app_assoc_s (a b c : string) : (a ++ b) ++ c = a ++ (b ++ c).
Proof. induction a as [|x a IH]; [reflexivity|]. cbn. rewrite IH. reflexivity. Qed.
Lemma slash_app d : ends_with_slash (d ++ "hppPlugins") = false.
Proof.
  induction d as [|c d IH]; [reflexivity|]. cbn [append]. cbn [ends_with_slash].
  destruct (d ++ "hppPlugins") eqn:E; [|exact IH]. destruct d; discriminate.
Qed.
Lemma join_file d name : join (join d "hppPlugins") name = plugin_file d name.
Proof.
  unfold plugin_file. unfold join at 2. rewrite slash_get.
  destruct (String.get (pred (String.length d)) d) as [c|] eqn:G.
  - destruct d as [|c0 d0]; [discriminate|]. set (d := String c0 d0) in *.
    destruct (Ascii.eqb c "/").
    + unfold join. rewrite slash_app. subst d. cbn [append]. rewrite app_assoc_s. reflexivity.
    + unfold join. change ("/" ++ "hppPlugins") with (String "/" "hppPlugins").
      assert (d ++ String "/" "hppPlugins" = (d ++ "/") ++ "hppPlugins") as -> by (rewrite app_assoc_s; reflexivity).
      rewrite slash_app. subst d. cbn [append]. rewrite !app_assoc_s. reflexivity.
  - apply get_last in G. subst d. reflexivity.
Qed.
Lemma absolute_spec n : is_absolute n = true <-> absolute n.
Proof.
  unfold absolute. destruct n as [|c n]; cbn; [split; [discriminate|intros (r & E); discriminate]|].
  rewrite Ascii.eqb_eq. split; [intros ->; eauto|]. intros (r & [= E1 E2]). exact E1.
Qed.

Lemma search_some regular dirs name f : search regular dirs name = Some f <->
  first_regular regular (map (fun d => plugin_file d name) dirs) f.
Proof.
  induction dirs as [|d r IH]; cbn [search map]; rewrite ?join_file.
  - split; [discriminate|]. intros ([|x a] & b & E & _); discriminate.
  - destruct (regular (plugin_file d name)) eqn:R.
    + split.
      * intros [= <-]. exists [], (map (fun d => plugin_file d name) r). split; [reflexivity|]. split; [exact R|intros x []].
      * intros ([|x a] & b & E & Rf & N); injection E as E1 E2; [congruence|].
        subst x. rewrite (N _ (or_introl eq_refl)) in R. discriminate.
    + rewrite IH. split.
      * intros (a & b & E & Rf & N). exists (plugin_file d name :: a)%list, b.
        rewrite E. split; [reflexivity|]. split; [exact Rf|]. intros x [<-|I]; auto.
      * intros ([|x a] & b & E & Rf & N); injection E as E1 E2; [congruence|].
        exists a, b. split; [exact E2|]. split; [exact Rf|]. intros y I. apply N. right. exact I.
Qed.
Lemma search_none regular dirs name : search regular dirs name = None <->
  forall x, In x (map (fun d => plugin_file d name) dirs) -> regular x = false.
Proof.
  induction dirs as [|d r IH]; cbn [search map]; rewrite ?join_file.
  - split; [intros _ x []|reflexivity].
  - destruct (regular (plugin_file d name)) eqn:R.
    + split; [discriminate|]. intros N. rewrite (N _ (or_introl eq_refl)) in R. discriminate.
    + rewrite IH. split; [intros N x [<-|I]; auto|]. intros N x I. apply N. right. exact I.
Qed.

(* An absolute name is returned; another is looked for in the subdirectory
   hppPlugins of the directories of HPP_PLUGIN_DIRS then of LD_LIBRARY_PATH, and
   the first regular file is returned. *)
Theorem C106_find regular hpp ld name f :
  find_plugin regular hpp ld name = Ok f <->
  (absolute name /\ f = name) \/
  (~ absolute name /\ first_regular regular (candidates hpp ld name) f).
Proof.
  rewrite <- absolute_spec. unfold find_plugin, candidates. destruct (is_absolute name).
  - split; [intros [= <-]; auto|]. intros [[_ ->]|[X _]]; [reflexivity|exfalso; apply X; reflexivity].
  - rewrite map_app. destruct (search regular hpp name) as [g|] eqn:S1.
    + assert (S1' := S1). apply search_some in S1. destruct S1 as (a & b & E & R & N). split.
      * intros [= <-]. right. split; [discriminate|]. rewrite E. eexists a, _. rewrite <- app_assoc. cbn [app]. auto.
      * intros [[X _]|[_ (a' & b' & E' & R' & N')]]; [discriminate|]. f_equal. rewrite E in E'.
        rewrite <- app_assoc in E'. cbn [app] in E'. revert a' E' N'. clear -R R' N.
        induction a as [|x a IH]; intros [|y a'] E' N'; cbn [app] in E'; injection E' as E1 E2.
        -- exact E1.
        -- subst y. rewrite (N' g (or_introl eq_refl)) in R. discriminate.
        -- subst x. rewrite (N f (or_introl eq_refl)) in R'. discriminate.
        -- apply (IH (fun z I => N z (or_intror I)) a' E2). intros z I. apply N'. right. exact I.
    + pose proof (proj1 (search_none _ _ _) S1) as S1'; clear S1; rename S1' into S1. destruct (search regular ld name) as [g|] eqn:S2.
      * assert (forall k, search regular ld name = Some k <-> first_regular regular (map (fun d => plugin_file d name) hpp ++ map (fun d => plugin_file d name) ld)%list k) as H.
        { intros k. rewrite search_some. clear -S1. set (l := map _ hpp) in *. split.
          - intros (a & b & E & R & N). exists (l ++ a)%list, b. rewrite E, app_assoc. split; [reflexivity|]. split; [exact R|].
            intros x I. apply in_app_or in I. destruct I; auto.
          - revert S1. induction l as [|x l IH]; intros S1; [auto|]. intros ([|y a] & b & E & R & N); cbn [app] in E; injection E as E1 E2.
            + subst x. rewrite (S1 k (or_introl eq_refl)) in R. discriminate.
            + apply IH; [intros z I; apply S1; right; exact I|]. exists a, b. split; [exact E2|]. split; [exact R|].
              intros z I. apply N. right. exact I. }
        rewrite <- H, S2. split; [intros [= <-]; right; split; [discriminate|reflexivity]|]. intros [[X _]|[_ [= <-]]]; [discriminate|reflexivity].
      * pose proof (proj1 (search_none _ _ _) S2) as S2'; clear S2; rename S2' into S2. split; [discriminate|].
        intros [[X _]|[_ (a & b & E & R & _)]]; [discriminate|]. exfalso.
        assert (In f (map (fun d => plugin_file d name) hpp ++ map (fun d => plugin_file d name) ld)%list) as I
          by (rewrite E; apply in_or_app; right; left; reflexivity).
        apply in_app_or in I. destruct I as [I|I]; [rewrite (S1 f I) in R|rewrite (S2 f I) in R]; discriminate.
Qed.

(* An exception is thrown exactly when there is none. *)
Theorem C106_find_none regular hpp ld name :
  find_plugin regular hpp ld name = Throw <->
  ~ absolute name /\ forall f, In f (candidates hpp ld name) -> regular f = false.
Proof.
  rewrite <- absolute_spec. unfold find_plugin, candidates. destruct (is_absolute name); [split; [discriminate|intros [X _]; exfalso; apply X; reflexivity]|].
  rewrite map_app. destruct (search regular hpp name) as [g|] eqn:S1.
  - split; [discriminate|]. intros [_ N]. apply search_some in S1. destruct S1 as (a & b & E & R & _).
    rewrite N in R; [discriminate|]. apply in_or_app. left. rewrite E. apply in_or_app. right. left. reflexivity.
  - destruct (search regular ld name) as [g|] eqn:S2.
    + split; [discriminate|]. intros [_ N]. apply search_some in S2. destruct S2 as (a & b & E & R & _).
      rewrite N in R; [discriminate|]. apply in_or_app. right. rewrite E. apply in_or_app. right. left. reflexivity.
    + split; [|reflexivity]. intros _. split; [discriminate|]. intros f I.
      apply in_app_or in I. destruct I as [I|I]; [apply (proj1 (search_none _ _ _) S1)|apply (proj1 (search_none _ _ _) S2)]; exact I.
Qed.

(* Loading throws when the library or its symbol cannot be found; otherwise the
   problem solver is what the plugin makes of it, once, and the result is its. *)
Theorem C106_load Lib PS (dlopen : string -> option Lib * bool) (dlsym : Lib -> option (PS -> bool * PS) * bool) lib ps :
  (snd (dlopen lib) = true -> load_plugin Lib PS dlopen dlsym lib ps = Throw) /\
  (dlopen lib = (None, false) -> load_plugin Lib PS dlopen dlsym lib ps = Ok (false, ps)) /\
  (forall l, dlopen lib = (Some l, false) -> snd (dlsym l) = true \/ fst (dlsym l) = None ->
     load_plugin Lib PS dlopen dlsym lib ps = Throw) /\
  (forall l f, dlopen lib = (Some l, false) -> dlsym l = (Some f, false) ->
     load_plugin Lib PS dlopen dlsym lib ps = Ok (f ps)).
Proof.
  unfold load_plugin. repeat split.
  - destruct (dlopen lib) as [o b]. cbn. intros ->. destruct o; reflexivity.
  - intros ->. reflexivity.
  - intros l -> [H|H]; destruct (dlsym l) as [o b]; cbn in H; subst; [destruct o; reflexivity|]. destruct b; reflexivity.
  - intros l f -> ->. unfold initialize. cbn. destruct (f ps). reflexivity.
Qed.

(* A plugin which has been initialized is not initialized again; one which
   failed is. *)
Theorem C106_initialize PS (p : plugin PS) ps : pl_done p = false ->
  let r := pl_impl p ps in let '(b, p', ps') := initialize p ps in
  b = fst r /\ ps' = snd r /\
  (b = true -> initialize p' ps' = (true, p', ps')) /\
  (b = false -> pl_done p' = false /\ pl_impl p' = pl_impl p).
Proof.
  intros D. unfold initialize. rewrite D. cbn. split; [reflexivity|]. split; [reflexivity|].
  destruct (pl_impl p ps) as [[|] ps'] eqn:E; cbn.
  - split; [reflexivity|discriminate].
  - split; [discriminate|]. auto.
Qed.

(* The documentation of loadPlugin says that the library is looked for first: it
   is not, so that a plugin which findPluginLibrary finds may not be loaded. *)
Theorem C106_load_searches_refuted : exists (regular : string -> bool) hpp ld name f
  (dlopen : string -> option unit * bool) (dlsym : unit -> option (nat -> bool * nat) * bool) ps,
  find_plugin regular hpp ld name = Ok f /\
  load_plugin unit nat dlopen dlsym f ps = Ok (true, S ps) /\
  load_plugin unit nat dlopen dlsym name ps = Throw.
Proof.
  exists (fun f => String.eqb f "/opt/lib/hppPlugins/manipulation.so"), ["/opt/lib"], [], "manipulation.so",
    "/opt/lib/hppPlugins/manipulation.so",
    (fun f => if String.eqb f "/opt/lib/hppPlugins/manipulation.so" then (Some tt, false) else (None, true)),
    (fun _ => (Some (fun n => (true, S n)), false)), 0.
  vm_compute. auto.
Qed.
(* Each load makes a new plugin: loading twice initializes twice. *)
Theorem C106_twice_refuted : exists (dlopen : string -> option unit * bool) (dlsym : unit -> option (nat -> bool * nat) * bool) lib ps,
  bind (load_plugin unit nat dlopen dlsym lib ps) (fun r => load_plugin unit nat dlopen dlsym lib (snd r)) = Ok (true, S (S ps)).
Proof.
  exists (fun f => (Some tt, false)), (fun _ => (Some (fun n => (true, S n)), false)), "p.so", 0. reflexivity.
Qed.

Example C106_example :
  let regular := fun f => orb (String.eqb f "/b/hppPlugins/p.so") (String.eqb f "/c/hppPlugins/p.so") in
  find_plugin regular ["/a"; "/b/"] ["/c"] "p.so" = Ok "/b/hppPlugins/p.so" /\
  find_plugin regular ["/a"] ["/c"; "/b"] "p.so" = Ok "/c/hppPlugins/p.so" /\
  find_plugin regular ["/a"] [] "p.so" = Throw /\
  find_plugin regular [] [] "/x/p.so" = Ok "/x/p.so".
Proof. vm_compute. auto. Qed.

Print Assumptions C106_find.
Print Assumptions C106_find_none.
Print Assumptions C106_load.
Print Assumptions C106_initialize.
Print Assumptions C106_load_searches_refuted.
Print Assumptions C106_twice_refuted.
