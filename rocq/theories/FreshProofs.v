(** Indices generated by simplify are fresh, also for terms with diagonal indices. *)
From Coq Require Import Ascii String ZArith QArith Qcanon Sorting.Sorted.
From Verif Require Import PyBase OrderSpec OrderProofs SpaceModel IndicesModel IterProofs IndicesProofs SpinProofs SpaceProofs ElemModel MacroModel TermModel ValueSpec TermSpec TermProofs RenameProofs SimplifyProofs.
Local Close Scope Q_scope.
Local Close Scope Qc_scope.
Local Open Scope nat_scope.
Local Notation length := List.length.

(** all values of the replacement come from [I] or were generated from [next0] on *)
Definition fresh_state (next0 : label -> nat) (I : list idx) (r : repl) (next : label -> nat) : Prop :=
  exists l, generates next0 l next /\ (forall z, In z (map snd r) -> In z I \/ In z l).

Lemma dict_set_snd (i f : idx) (r : repl) z : In z (map snd (dict_set idx_eqb i f r)) -> z = f \/ In z (map snd r).
Proof.
  induction r as [|[k w] r IH]; cbn [dict_set]; [intros [<-|[]]; auto|]. destruct (idx_eqb i k); cbn [map snd In]; [intuition|]. intros [H|H]; [tauto|]. apply IH in H. tauto.
Qed.
Lemma dict_update_snd (d e : repl) z : In z (map snd (dict_update idx_eqb d e)) -> In z (map snd d) \/ In z (map snd e).
Proof.
  unfold dict_update. revert d. induction e as [|[k w] e IH]; intros d H; [auto|]. cbn [fold_left fst snd] in H. apply IH in H as [H|H]; [|cbn; tauto]. apply dict_set_snd in H as [->|H]; cbn; tauto.
Qed.
Lemma fresh_set_old next0 I r next i z : fresh_state next0 I r next -> In z I -> fresh_state next0 I (dict_set idx_eqb i z r) next.
Proof. intros (l & G & H) Hz. exists l. split; [exact G|]. intros y Hy. apply dict_set_snd in Hy as [->|Hy]; auto. Qed.
Lemma fresh_bump next0 I r next s : fresh_state next0 I r next -> fresh_state next0 I r (bump next s).
Proof.
  intros (l & G & H). exists (l ++ [(s, next s)]). split; [eapply generates_app; [exact G|apply generates_one; reflexivity]|]. intros y Hy. destruct (H y Hy); [auto|right; apply in_or_app; auto].
Qed.
Lemma fresh_set_new next0 I r next s f next' (l : list idx) : fresh_state next0 I r next -> generate_next_index s next = (f, next') ->
  fresh_state next0 I (fold_left (fun r j => dict_set idx_eqb j f r) l r) next'.
Proof.
  intros (g & G & H) E. injection E as <- <-. exists (g ++ [(s, next s)]). split; [eapply generates_app; [exact G|apply generates_one; reflexivity]|].
  assert (Q : forall l r, (forall y, In y (map snd r) -> In y I \/ In y (g ++ [(s, next s)])) -> forall y, In y (map snd (fold_left (fun r j => dict_set idx_eqb j (s, next s) r) l r)) -> In y I \/ In y (g ++ [(s, next s)])).
  { clear. induction l as [|j l IH]; intros r H y Hy; [auto|]. cbn [fold_left] in Hy. eapply IH; [|exact Hy]. intros z Hz. apply dict_set_snd in Hz as [->|Hz]; [right; apply in_or_app; right; left; reflexivity|auto]. }
  apply Q. intros y Hy. destruct (H y Hy); [auto|right; apply in_or_app; auto].
Qed.

Lemma assign_fresh_state next0 I i s r next rd : fresh_state next0 I r next ->
  exists r' next' rd', assign_fresh i s (r, next, rd) = (r', next', rd') /\ fresh_state next0 I r' next'.
Proof. intros H. unfold assign_fresh. destruct (generate_next_index s next) as [f next'] eqn:E. do 3 eexists. split; [reflexivity|]. exact (fresh_set_new next0 I r next s f next' [i] H E). Qed.
Lemma downgrade_loop_fresh next0 I core xs : forall r next rd ys r' next' rd', fresh_state next0 I r next ->
  downgrade_loop core xs (r, next, rd) = Ok (ys, (r', next', rd')) -> fresh_state next0 I r' next'.
Proof.
  induction xs as [|x xs IH]; intros r next rd ys r' next' rd' F H; cbn [downgrade_loop] in H; [injection H as <- <- <- <-; exact F|].
  destruct (downgrade_step core x (r, next, rd)) as [[y [[r1 n1] rd1]]|] eqn:E; [|discriminate]. cbn [pybind fst snd] in H.
  destruct (downgrade_loop core xs (r1, n1, rd1)) as [[ys' [[r2 n2] rd2]]|] eqn:E2; [|discriminate]. cbn [pybind fst snd] in H. injection H as _ <- <- <-.
  apply (IH _ _ _ _ _ _ _) with (2 := E2). clear IH E2. unfold downgrade_step in E. destruct (tcls x); try (injection E as _ <- <- <-; exact F).
  destruct (length (tupper x) =? 1).
  - destruct (tupper x) as [|u [|? ?]]; try discriminate. destruct (tlower x) as [|l [|? ?]]; try discriminate. destruct (downgrade_cumulant u l) as [s|]; [|discriminate]. destruct (_ && core).
    + destruct (check_tensor _); [|discriminate]. injection E as _ <- <- <-. exact F.
    + destruct (assign_fresh_state next0 I u s r next rd F) as (ra & na & rda & Ea & Fa). destruct (assign_fresh_state next0 I l s ra na rda Fa) as (rb & nb & rdb & Eb & Fb).
      assert (Eab : assign_fresh l s (assign_fresh u s (r, next, rd)) = (rb, nb, rdb)) by (rewrite Ea; exact Eb). rewrite Eab in E. injection E as _ <- <- <-. exact Fb.
  - injection E as _ E. revert r next rd F E. induction (tupper x ++ tlower x) as [|i m IHm]; intros r next rd F E; cbn [fold_left] in E; [injection E as <- <- <-; exact F|].
    destruct (assign_fresh_state next0 I i (active_label i) r next rd F) as (ra & na & rda & Ea & Fa). eapply IHm; [exact Fa|]. rewrite <- E. f_equal. symmetry. exact Ea.
Qed.
Lemma high_low_in u l h w : high_low u l = (h, w) -> w = u \/ w = l.
Proof. destruct (high_low_cases u l) as [->| ->]; intros H; injection H as <- <-; auto. Qed.
Lemma delta_loop_fresh next0 I ys : forall r next rd zs r' next' rd', fresh_state next0 I r next ->
  (forall y i, In y ys -> In i (tensor_indices y) -> In i I) ->
  delta_loop ys (r, next, rd) = Ok (zs, (r', next', rd')) -> fresh_state next0 I r' next'.
Proof.
  induction ys as [|y ys IH]; intros r next rd zs r' next' rd' F HI H; cbn [delta_loop] in H; [injection H as <- <- <- <-; exact F|].
  destruct (tclass_eqb (tcls y) TKronecker).
  - destruct (delta_step y (r, next, rd)) as [[[r1 n1] rd1]|] eqn:E; [|discriminate]. cbn [pybind] in H. assert (F1 : fresh_state next0 I r1 n1).
    { unfold delta_step in E. destruct (tupper y) as [|u ru] eqn:Eu; [discriminate|]. destruct (tlower y) as [|l rl] eqn:El; [discriminate|]. destruct (downgrade_kronecker u l); [|discriminate].
      destruct (high_low u l) as [h w] eqn:Eh. destruct (_ && _).
      - destruct (generate_next_index _ next) as [f n'] eqn:Eg. injection E as <- <- _. exact (fresh_set_new next0 I r next _ f n' [h; w] F Eg).
      - injection E as <- <- _. apply fresh_set_old; [exact F|]. apply (HI y); [left; reflexivity|]. unfold tensor_indices. rewrite Eu, El. apply in_or_app.
        destruct (high_low_in _ _ _ _ Eh) as [->| ->]; [left|right]; left; reflexivity. }
    eapply IH; [exact F1| |exact H]. intros z i Hz. apply HI. right. exact Hz.
  - destruct (delta_loop ys (r, next, rd)) as [[zs' st]|] eqn:E; [|discriminate]. cbn [pybind fst snd] in H. injection H as _ ->. eapply IH; [exact F| |exact E]. intros z i Hz. apply HI. right. exact Hz.
Qed.
Lemma diagonal_loop_fresh next0 I d rc rdl : forall r next r' next', fresh_state next0 I r next -> diagonal_loop d rc rdl r next = Ok (r', next') -> fresh_state next0 I r' next'.
Proof.
  induction d as [|[i n] d IH]; intros r next r' next' F H; cbn [diagonal_loop] in H; [injection H as <- <-; exact F|].
  destruct (dict_item idx_eqb i rc) as [a|]; [|discriminate]. cbn [pybind] in H. destruct (dict_item idx_eqb i rdl) as [b|]; [|discriminate]. cbn [pybind] in H.
  destruct (space_label_of _) as [s|]; [|discriminate]. cbn [pybind] in H. destruct (generate_next_index s next) as [f n'] eqn:E. eapply IH; [|exact H].
  exact (fresh_set_new next0 I r next s f n' (i :: dedup (a ++ b)) F E).
Qed.

Lemma rename_value r i : In i (map fst r) -> In (rename r i) (map snd r).
Proof. intros H. apply (in_map snd) with (x := (i, rename r i)). apply rename_in, H. Qed.
Lemma replace_keys r l m : replace r l = Ok m -> forall i, In i l -> In i (map fst r).
Proof.
  unfold replace. revert m. induction l as [|x l IH]; intros m H i Hi; [destruct Hi|]. cbn [pymap] in H. unfold dict_item at 1 in H. destruct (dict_get idx_eqb x r) as [y|] eqn:E; [|discriminate]. cbn [pybind] in H.
  destruct (pymap _ l) as [ys|] eqn:E'; [|discriminate]. destruct Hi as [<-|Hi]; [apply dget_in in E; exact (in_map fst _ _ E)|]. eapply IH; [reflexivity|exact Hi].
Qed.
Lemma replace_tensor_keys r x y : replace_tensor r x = Ok y -> forall i, In i (tensor_indices x) -> In i (map fst r).
Proof.
  unfold replace_tensor. destruct (replace r (tupper x)) as [u|] eqn:E1; cbn [pybind]; [|discriminate]. destruct (make_typed _ u); cbn [pybind]; [|discriminate]. destruct (replace r (tlower x)) as [l|] eqn:E2; cbn [pybind]; [|discriminate]. intros _ i Hi.
  apply in_app_or in Hi as [Hi|Hi]; [exact (replace_keys _ _ _ E1 i Hi)|exact (replace_keys _ _ _ E2 i Hi)].
Qed.
Lemma replace_op_keys t r o o' : replace_op_indices t o r = Ok o' -> forall i, In i (op_indices o) -> In i (map fst r).
Proof.
  unfold replace_op_indices. destruct (replace r (cre o)) as [u|] eqn:E1; [|discriminate]. cbn [pybind]. destruct (make_typed _ u); [|discriminate]. cbn [pybind].
  destruct (replace r (ann o)) as [l|] eqn:E2; cbn [pybind]; [|discriminate]. intros _ i Hi. apply in_app_or in Hi as [Hi|Hi]; [exact (replace_keys _ _ _ E1 i Hi)|exact (replace_keys _ _ _ E2 i Hi)].
Qed.

Lemma simplify_fresh core ra t t' : simplify core ra t = Ok t' ->
  (forall i, In i (content_indices (ttensors t) (tsq t)) -> In i (tindices t)) ->
  exists l, generates (tnext t) l (tnext t') /\ (forall i, In i (tindices t') -> In i (tindices t) \/ In i l) /\
    (forall i, In i (content_indices (ttensors t') (tsq t')) -> In i (tindices t')).
Proof.
  intros H HI. unfold simplify in H.
  match type of H with pybind ?a _ = _ => destruct a as [[ys [[rcu next1] rd1]]|] eqn:E1 end; [|discriminate]. cbn [pybind] in H.
  match type of H with pybind ?a _ = _ => destruct a as [[zs [[rde next2] rd2]]|] eqn:E2 end; [|discriminate]. cbn [pybind] in H.
  match type of H with pybind ?a _ = _ => destruct a as [[r next3]|] eqn:E3 end; [|discriminate]. cbn [pybind] in H.
  assert (F0 : fresh_state (tnext t) (tindices t) [] (tnext t)) by (exists []; split; [constructor|intros z []]).
  pose proof (downgrade_loop_fresh _ (tindices t) core _ _ _ _ _ _ _ _ F0 E1) as F1.
  assert (HY : forall y i, In y ys -> In i (tensor_indices y) -> In i (tindices t)).
  { assert (Q : forall xs st ys st', downgrade_loop core xs st = Ok (ys, st') -> forall y, In y ys -> exists x, In x xs /\ tensor_indices y = tensor_indices x).
    { clear. induction xs as [|x xs IH]; intros st ys st' H y Hy; cbn [downgrade_loop] in H; [injection H as <- _; destruct Hy|].
      destruct (downgrade_step core x st) as [[z st1]|] eqn:E; [|discriminate]. cbn [pybind fst snd] in H. destruct (downgrade_loop core xs st1) as [[zs st2]|] eqn:E2; [|discriminate]. cbn [pybind fst snd] in H. injection H as <- _.
      destruct Hy as [<-|Hy]; [|destruct (IH _ _ _ E2 y Hy) as (x' & H1 & H2); exists x'; cbn; auto]. exists x. split; [left; reflexivity|].
      unfold downgrade_step in E. destruct (tcls x) eqn:Ec; try (injection E as <- _; reflexivity). destruct (length (tupper x) =? 1); [|injection E as <- _; reflexivity].
      unfold tensor_indices at 2. destruct (tupper x) as [|u [|? ?]] eqn:Eu; try discriminate. destruct (tlower x) as [|l [|? ?]] eqn:El; try discriminate. destruct (downgrade_cumulant u l); [|discriminate]. destruct (_ && core).
      - destruct (check_tensor _) as [k|] eqn:Ek; [|discriminate]. apply check_tensor_ok in Ek as ->. injection E as <- _. reflexivity.
      - injection E as <- _. unfold tensor_indices. rewrite Eu, El. reflexivity. }
    intros y i Hy Hi. destruct (Q _ _ _ _ E1 y Hy) as (x & Hx & Ex). rewrite Ex in Hi. apply HI. unfold content_indices. apply in_or_app. right. apply in_flat_map. eauto. }
  assert (G : fresh_state (tnext t) (tindices t) [] next1) by (destruct F1 as (l & G & _); exists l; split; [exact G|intros z []]).
  destruct F1 as (l1 & G1 & V1).
  assert (F2 : fresh_state next1 (tindices t) rde next2).
  { eapply delta_loop_fresh; [|exact HY|exact E2]. exists []. split; [constructor|intros z []]. }
  destruct F2 as (l2 & G2 & V2).
  assert (F3 : fresh_state (tnext t) (tindices t) r next3).
  { eapply diagonal_loop_fresh; [|exact E3]. exists (l1 ++ l2). split; [eapply generates_app; eassumption|]. intros z Hz. rewrite in_app_iff. apply dict_update_snd in Hz as [Hz|Hz]; [|apply V2 in Hz; tauto].
    apply dict_update_snd in Hz as [Hz|Hz]; [|apply V1 in Hz; tauto]. rewrite map_map in Hz. cbn [snd] in Hz. rewrite map_id in Hz. tauto. }
  destruct F3 as (l & G3 & V3). exists l.
  destruct (replace_op_indices (ttype t) (tsq t) r) as [o'|] eqn:Eo; [|discriminate]. cbn [pybind] in H.
  destruct (if ra then _ else Ok false) as [[|]|]; [| |discriminate]; cbn [pybind] in H.
  { injection H as <-. cbn. split; [exact G3|]. split; intros i []. }
  destruct (replace_tensors_indices zs r) as [ws|] eqn:Et; [|discriminate]. cbn [pybind] in H. destruct (pymap _ (tdiag t)) as [d|]; [|discriminate]. cbn [pybind] in H. injection H as <-. cbn [tnext tindices ttensors tsq].
  split; [exact G3|]. split; [intros i Hi; apply V3, dedup_in, Hi|]. intros i Hi. apply dedup_in. unfold content_indices in Hi. apply in_app_or in Hi as [Hi|Hi].
  - pose proof (replace_op_keys _ _ _ _ Eo) as K. apply replace_op_ok in Eo as [-> _]. unfold op_indices, rename_op in Hi. cbn [cre ann] in Hi. rewrite <- map_app in Hi. apply in_map_iff in Hi as (j & <- & Hj). apply rename_value, K, Hj.
  - pose proof Et as Et'. apply replace_tensors_ok in Et as [_ ->]. apply in_flat_map in Hi as (y & Hy & Hi). apply in_map_iff in Hy as (x & <- & Hx). unfold tensor_indices, rename_tensor in Hi. cbn [tupper tlower] in Hi. rewrite <- map_app in Hi. apply in_map_iff in Hi as (j & <- & Hj).
    apply rename_value. unfold replace_tensors_indices in Et'. destruct zs as [|z0 zs0]; [discriminate|]. assert (Q : forall xs ws, pymap (replace_tensor r) xs = Ok ws -> forall x j, In x xs -> In j (tensor_indices x) -> In j (map fst r)).
    { clear. induction xs as [|x xs IH]; intros ws H z j Hz Hj; [destruct Hz|]. cbn [pymap] in H. destruct (replace_tensor r x) as [y|] eqn:E; [|discriminate]. cbn [pybind] in H. destruct (pymap (replace_tensor r) xs) as [ys|] eqn:E'; [|discriminate].
      destruct Hz as [<-|Hz]; [eapply replace_tensor_keys; eassumption|eapply IH; [reflexivity|exact Hz|exact Hj]]. }
    eapply Q; [exact Et'|exact Hx|exact Hj].
Qed.
