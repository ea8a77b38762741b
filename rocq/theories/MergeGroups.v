(** canonicalize_sympy: the symmetries declared for the slots of the tensors. *)
From Coq Require Import Ascii String ZArith QArith Qcanon Sorting.Sorted Lia.
From Verif Require Import PyBase OrderSpec OrderProofs SortProofs ParitySpec ParityProofs SpaceModel IndexProofs IndicesModel IterProofs IndicesProofs SpaceProofs ElemModel MacroModel TermModel ValueSpec ValueProofs TermSpec SumProofs TermProofs RenameProofs
  SimplifyProofs CanonProofs SymmetryModel SymmetrySpec SymmetryProofs SympyProofs SympyValue SympyShape MergeSpec MergeMoves MergeLabels.
Local Close Scope Q_scope.
Local Close Scope Qc_scope.
Local Open Scope nat_scope.
Local Notation length := List.length.

Lemma pymap_two {X Y} (f : X -> pyres Y) l r : pymap f l = Ok r -> Forall2 (fun x y => f x = Ok y) l r.
Proof.
  revert r. induction l as [|x l IH]; intros r H; cbn [pymap] in H; [injection H as <-; constructor|]. destruct (f x) as [y|] eqn:E; [|discriminate]. cbn [pybind] in H. destruct (pymap f l) as [ys|]; [|discriminate]. injection H as <-. constructor; [exact E|apply IH; reflexivity].
Qed.
Definition bodied_tensor (x : tensor) : Prop := length (tlower x) = length (tupper x).
Lemma keyed_ok xs keyed : pymap (fun x => pybind (n_body x) (fun n => Ok (x, n))) xs = Ok keyed -> keyed = map (fun x => (x, length (tlower x))) xs /\ Forall bodied_tensor xs.
Proof.
  revert keyed. induction xs as [|x xs IH]; intros keyed H; cbn [pymap] in H; [injection H as <-; split; [reflexivity|constructor]|]. unfold n_body in H at 1. destruct (length (tlower x) =? length (tupper x)) eqn:L; [|discriminate]. apply Nat.eqb_eq in L. cbn [pybind] in H.
  destruct (pymap _ xs) as [ks|]; [|discriminate]. cbn [pybind] in H. injection H as <-. destruct (IH ks eq_refl) as [-> F]. split; [reflexivity|constructor; assumption].
Qed.
Definition key2 (xn : tensor * nat) : string * nat := (tname (fst xn), snd xn).
Lemma name_body_refl a : name_body_eqb a a = true.
Proof. unfold name_body_eqb. rewrite String.eqb_refl, Nat.eqb_refl. reflexivity. Qed.
Lemma name_body_eq a b : name_body_eqb a b = true -> a = b.
Proof. destruct a, b. unfold name_body_eqb. cbn. rewrite andb_true_iff, String.eqb_eq, Nat.eqb_eq. intros [-> ->]. reflexivity. Qed.

Lemma slots_runs N : forall runs1 off run runs2 (gs1 : list (list tensor)), Forall2 (fun g run => (length (hd [] (fst run)) - 2) * snd run = slots g) gs1 runs1 ->
  incl (slot_symmetries N (off + slots (concat gs1)) (run :: runs2)) (slot_symmetries N off (runs1 ++ run :: runs2)).
Proof.
  intros runs1 off run runs2 gs1 F. revert off. induction F as [|g [gens c] gs1 runs1 E F IH]; intros off s Hs; [cbn [concat] in Hs; unfold slots in Hs at 1; cbn [map list_sum fold_right] in Hs; rewrite Nat.add_0_r in Hs; exact Hs|].
  cbn [app]. change (slot_symmetries N off ((gens, c) :: runs1 ++ run :: runs2)) with (let sz := length (hd [] gens) - 2 in flat_map (fun c => map (embed N (off + c * sz)) gens) (seq 0 c) ++ map (fun c => exchange N (off + c * sz) sz) (seq 0 (c - 1)) ++ slot_symmetries N (off + c * sz) (runs1 ++ run :: runs2)).
  cbv zeta. apply in_or_app. right. apply in_or_app. right. apply IH. cbn [fst snd] in E. cbn [concat] in Hs. rewrite slots_app in Hs. replace (off + c * (length (hd [] gens) - 2) + slots (concat gs1)) with (off + (slots g + slots (concat gs1))) by lia. exact Hs.
Qed.

(** the run that contains the positions k to q *)
Lemma groups_split ty h xs runs k q : Forall (fun x => titype x = ty) xs -> tensor_groups h xs = Ok runs -> k <= q -> q < length xs ->
  (forall j x y, k <= j <= q -> nth_error xs j = Some x -> nth_error xs k = Some y -> tname x = tname y /\ length (tlower x) = length (tlower y)) ->
  exists xs0 g xs3 n gens runs2, xs = xs0 ++ g ++ xs3 /\ length xs0 <= k /\ q < length xs0 + length g /\ (forall y, In y g -> length (tlower y) = n /\ length (tupper y) = n) /\
    base_strong_generating_set ty n n h false = Ok gens /\ forall N off, incl (slot_symmetries N (off + slots xs0) ((gens, length g) :: runs2)) (slot_symmetries N off runs).
Proof.
  intros HT H KQ Q HK. unfold tensor_groups in H. destruct (pymap _ xs) as [keyed|] eqn:E in H; [|discriminate]. cbn [pybind] in H. apply keyed_ok in E as [-> B].
  destruct xs as [|x0 xs']; [cbn in Q; lia|]. set (xs := x0 :: xs') in *. set (F := fun x : tensor => (x, length (tlower x))) in *.
  destruct (groupby_same name_body_eqb key2 (F x0) name_body_refl name_body_eq (map F xs) k q KQ) as (gs1 & g & gs2 & EG & L1 & L2); [rewrite map_length; exact Q| |].
  { intros j Hj. rewrite !map_nth. unfold key2, F. cbn [fst snd]. destruct (HK j (nth j xs x0) (nth k xs x0) Hj) as [-> ->]; [apply nth_error_nth'; lia|apply nth_error_nth'; lia|reflexivity]. }
  change (fun xn : tensor * nat => (tname (fst xn), snd xn)) with key2 in H. destruct (groupby_spec name_body_eqb key2 (map F xs) name_body_eq) as [G1 G2]. rewrite EG in *. apply pymap_two in H.
  assert (FK : forall gg, In gg (gs1 ++ g :: gs2) -> forall x n, In (x, n) gg -> In x xs /\ n = length (tlower x) /\ length (tupper x) = n).
  { intros gg Hg x n Hx. assert (I : In (x, n) (map F xs)) by (rewrite <- G1; apply in_concat; eauto). apply in_map_iff in I as (z & Ez & Hz). unfold F in Ez. injection Ez as -> <-. rewrite Forall_forall in B. specialize (B x Hz). unfold bodied_tensor in B. auto. }
  assert (RUN : forall gg run, In gg (gs1 ++ g :: gs2) -> (match gg with [] => Raise IndexError | (x, _) :: _ => pybind (base_strong_generating_set (titype x) (length (tupper x)) (length (tlower x)) h false) (fun gens => Ok (gens, length gg)) end) = Ok run ->
    exists n gens, run = (gens, length gg) /\ base_strong_generating_set ty n n h false = Ok gens /\ forall y, In y (map fst gg) -> length (tlower y) = n /\ length (tupper y) = n).
  { intros gg run Hg Er. destruct gg as [|[x n] gg]; [discriminate|]. destruct (FK _ Hg x n (or_introl eq_refl)) as (Hx & -> & Lx). rewrite Forall_forall in HT. rewrite (HT x Hx), Lx in Er. destruct (base_strong_generating_set _ _ _ _ _) as [gens|] eqn:Eb; [|discriminate]. cbn [pybind] in Er. injection Er as <-.
    exists (length (tlower x)), gens. split; [reflexivity|]. split; [exact Eb|]. intros y Hy. apply in_map_iff in Hy as ([y' n] & <- & Hy). destruct (FK _ Hg y' n Hy) as (_ & -> & Ly). cbn [fst]. rewrite Forall_forall in G2. destruct (G2 _ Hg) as [_ G3]. specialize (G3 _ _ Hy (or_introl eq_refl)). unfold key2 in G3. cbn [fst snd] in G3. injection G3 as _ G3. rewrite Ly, G3. auto. }
  apply Forall2_app_inv_l in H as (runs1 & runs' & F1 & F2 & ->). inversion F2 as [|? run ? runs2 Er F3]; subst.
  destruct (RUN g run (in_or_app gs1 (g :: gs2) g (or_intror (or_introl eq_refl))) Er) as (n & gens & -> & Eb & HG).
  exists (map fst (concat gs1)), (map fst g), (map fst (concat gs2)), n, gens, runs2. split.
  { rewrite <- !map_app. change (g ++ concat gs2) with (concat (g :: gs2)). rewrite <- concat_app, G1, map_map. unfold F. cbn [fst]. symmetry. apply map_id. }
  rewrite !map_length. split; [exact L1|]. split; [exact L2|]. split; [exact HG|]. split; [exact Eb|]. intros N off.
  pose proof (slots_runs N runs1 off (gens, length g) runs2 (map (map fst) gs1)) as Z. rewrite <- concat_map in Z. apply Z. clear Z.
  assert (R' : forall gg, In gg gs1 -> In gg (gs1 ++ g :: gs2)) by (intros gg Hg; apply in_or_app; auto). remember (gs1 ++ g :: gs2) as all eqn:Eall. clear - F1 R' RUN. induction F1 as [|gg run gs1 runs1 E1 F1 IH]; cbn [map]; constructor.
  - destruct (RUN gg run (R' _ (or_introl eq_refl)) E1) as (n & gens & -> & Eb & HG). cbn [fst snd]. rewrite (gens_length _ _ _ _ Eb), (slots_same n _ HG), map_length. lia.
  - apply IH. intros gg' Hg'. apply R'. right. exact Hg'.
Qed.
(** permutations of the slots of a tensor *)
Lemma embed_declared ty h xs1 x xs2 runs : Forall (fun y => titype y = ty) (xs1 ++ x :: xs2) -> tensor_groups h (xs1 ++ x :: xs2) = Ok runs ->
  exists n gens, length (tlower x) = n /\ length (tupper x) = n /\ base_strong_generating_set ty n n h false = Ok gens /\ forall N off p, In p gens -> In (embed N (off + slots xs1) p) (slot_symmetries N off runs).
Proof.
  intros HT H. destruct (groups_split ty h _ runs (length xs1) (length xs1) HT H) as (xs0 & g & xs3 & n & gens & runs2 & E & L1 & L2 & HG & Eb & HI); [lia|rewrite app_length; cbn; lia| |].
  { intros j y z Hj E1 E2. assert (j = length xs1) by lia. subst j. rewrite E1 in E2. injection E2 as <-. auto. }
  set (c := length xs1 - length xs0). assert (E1 : firstn c g ++ x :: skipn (Datatypes.S c) g = g /\ xs1 = xs0 ++ firstn c g).
  { assert (Q1 : firstn (length xs1) (xs0 ++ g ++ xs3) = xs1) by (rewrite <- E; apply firstn_at; reflexivity). rewrite firstn_app, firstn_all2 in Q1 by exact L1. fold c in Q1. rewrite firstn_app in Q1. replace (c - length g) with 0 in Q1 by (unfold c; lia). cbn [firstn] in Q1. rewrite app_nil_r in Q1. split; [|symmetry; exact Q1].
    assert (Q2 : nth_error (xs0 ++ g ++ xs3) (length xs1) = Some x) by (rewrite <- E, nth_error_app2, Nat.sub_diag by lia; reflexivity). rewrite nth_error_app2 in Q2 by exact L1. fold c in Q2. rewrite nth_error_app1 in Q2 by (unfold c; lia).
    apply nth_error_split in Q2 as (a & b & -> & La). rewrite <- La, firstn_at by reflexivity. f_equal. f_equal. change (a ++ x :: b) with (a ++ [x] ++ b). rewrite app_assoc. rewrite skipn_at by (rewrite app_length; cbn; lia). reflexivity. }
  destruct E1 as [E1 E2]. assert (Lc : length (firstn c g) = c) by (apply firstn_length_le; unfold c; lia). destruct (HG x) as [Lx Ux]; [rewrite <- E1; apply in_or_app; right; left; reflexivity|]. exists n, gens. split; [exact Lx|]. split; [exact Ux|]. split; [exact Eb|]. intros N off p Hp. apply HI. cbn [slot_symmetries]. rewrite (gens_length _ _ _ _ Eb). replace (n + n + 2 - 2) with (n + n) by lia.
  apply in_or_app. left. apply in_flat_map. exists c. split; [apply in_seq; unfold c; lia|]. apply in_map_iff. exists p. split; [|exact Hp]. f_equal. rewrite E2, slots_app, (slots_same n (firstn c g)), Lc; [lia|]. intros y Hy. apply HG. rewrite <- E1. apply in_or_app. auto.
Qed.
(** exchange of two tensors with the same name and rank *)
Lemma exchange_declared ty h xs1 x y xs2 runs : Forall (fun y => titype y = ty) (xs1 ++ x :: y :: xs2) -> tensor_groups h (xs1 ++ x :: y :: xs2) = Ok runs -> tname y = tname x -> length (tlower y) = length (tlower x) ->
  forall N off, In (exchange N (off + slots xs1) (tslots x)) (slot_symmetries N off runs).
Proof.
  intros HT H EN EL N off. destruct (groups_split ty h _ runs (length xs1) (Datatypes.S (length xs1)) HT H) as (xs0 & g & xs3 & n & gens & runs2 & E & L1 & L2 & HG & Eb & HI); [lia|rewrite app_length; cbn; lia| |].
  { intros j z w Hj E1 E2. rewrite nth_error_app2, Nat.sub_diag in E2 by lia. injection E2 as <-. rewrite nth_error_app2 in E1 by lia. assert (Q : j - length xs1 = 0 \/ j - length xs1 = 1) by lia. destruct Q as [Q|Q]; rewrite Q in E1; injection E1 as <-; auto. }
  set (c := length xs1 - length xs0). assert (E1 : xs1 = xs0 ++ firstn c g /\ In x g).
  { assert (Q1 : firstn (length xs1) (xs0 ++ g ++ xs3) = xs1) by (rewrite <- E; apply firstn_at; reflexivity). rewrite firstn_app, firstn_all2 in Q1 by exact L1. fold c in Q1. rewrite firstn_app in Q1. replace (c - length g) with 0 in Q1 by (unfold c; lia). cbn [firstn] in Q1. rewrite app_nil_r in Q1. split; [symmetry; exact Q1|].
    assert (Q2 : nth_error (xs0 ++ g ++ xs3) (length xs1) = Some x) by (rewrite <- E, nth_error_app2, Nat.sub_diag by lia; reflexivity). rewrite nth_error_app2 in Q2 by exact L1. fold c in Q2. rewrite nth_error_app1 in Q2 by (unfold c; lia). exact (nth_error_In _ _ Q2). }
  destruct E1 as [E2 Hx]. assert (Lc : length (firstn c g) = c) by (apply firstn_length_le; unfold c; lia). destruct (HG x Hx) as [Lx Ux]. apply HI. cbn [slot_symmetries]. rewrite (gens_length _ _ _ _ Eb). replace (n + n + 2 - 2) with (n + n) by lia.
  apply in_or_app. right. apply in_or_app. left. apply in_map_iff. exists c. split; [|apply in_seq; unfold c; lia]. unfold tslots. rewrite Lx, Ux. f_equal. rewrite E2, slots_app, (slots_same n (firstn c g)), Lc; [lia|]. intros z Hz. apply HG. rewrite <- (firstn_skipn c g). apply in_or_app. auto.
Qed.
