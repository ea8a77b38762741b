(** Literal substitution on segmented texts; directories. *)
From Coq Require Import Ascii String.
From Verif Require Import PyBase FileModel.
Local Notation length := List.length.

Lemma after_some k s r : after k s = Some r <-> s = k ++ r.
Proof.
  revert s. induction k as [|a k IH]; intros s; cbn [after app]; [split; congruence|]. destruct s as [|b s]; [split; discriminate|].
  destruct (Ascii.eqb_spec a b) as [->|D].
  - rewrite IH. split; congruence.
  - split; [discriminate|congruence].
Qed.
Lemma after_none k s : after k s = None -> forall r, s <> k ++ r.
Proof. intros H r E. apply after_some in E. congruence. Qed.

Lemma sub_step_match n k v r : k <> [] -> length (k ++ r) <= S n -> sub_fuel (S n) k v (k ++ r) = v ++ sub_fuel n k v r.
Proof.
  intros K L. cbn [sub_fuel]. destruct k as [|a k]; [contradiction|]. cbn [app]. destruct (after (a :: k) (a :: k ++ r)) as [r'|] eqn:E.
  - apply after_some in E. cbn [app] in E. injection E as E. apply app_inv_head in E. subst. reflexivity.
  - exfalso. apply (after_none _ _ E r). reflexivity.
Qed.

(** the fuel does not matter if it is enough *)
Lemma sub_fuel_enough k v : k <> [] -> forall n m s, length s <= n -> length s <= m -> sub_fuel n k v s = sub_fuel m k v s.
Proof.
  intros K. induction n as [|n IH]; intros m s Ln Lm.
  - destruct s; [|cbn in Ln; lia]. destruct m; reflexivity.
  - destruct s as [|a s]; [destruct m; reflexivity|]. destruct m as [|m]; [cbn in Lm; lia|]. cbn [sub_fuel]. cbn [List.length] in Ln, Lm. destruct (after k (a :: s)) as [r|] eqn:E.
    + apply after_some in E. assert (length r <= length s) by (apply (f_equal (@List.length ascii)) in E; rewrite app_length in E; cbn [List.length] in E; destruct k; [contradiction|cbn [List.length] in E; lia]). f_equal. apply IH; lia.
    + f_equal. apply IH; lia.
Qed.
Lemma sub_match k v r : k <> [] -> sub_literal k v (k ++ r) = v ++ sub_literal k v r.
Proof.
  intros K. unfold sub_literal. assert (L : length (k ++ r) = S (pred (length k) + length r)) by (rewrite app_length; destruct k; [contradiction|cbn; lia]).
  rewrite L, sub_step_match by (try assumption; lia). f_equal. apply sub_fuel_enough; [assumption|lia|lia].
Qed.
Lemma sub_nomatch k v a s : k <> [] -> (forall r, a :: s <> k ++ r) -> sub_literal k v (a :: s) = a :: sub_literal k v s.
Proof.
  intros K N. unfold sub_literal. cbn [List.length sub_fuel]. destruct (after k (a :: s)) as [r|] eqn:E; [|reflexivity]. exfalso. apply after_some in E. exact (N r E).
Qed.
Lemma sub_nil k v : sub_literal k v [] = [].
Proof. reflexivity. Qed.

(** ** Texts cut into segments, some of them marked as placeholders *)
Section Segments.
  Context (k v : text) (K : k <> []).
  Definition seg_text (segs : list (text * bool)) : text := concat (map fst segs).
  Definition seg_filled (segs : list (text * bool)) : text := concat (map (fun sg : text * bool => if snd sg then v else fst sg) segs).
  Lemma sub_segments segs : (forall sg : text * bool, In sg segs -> snd sg = true -> fst sg = k) ->
    (forall a b, seg_text segs = a ++ k ++ b -> exists s1 s2 : list (text * bool), segs = s1 ++ (k, true) :: s2 /\ a = seg_text s1) ->
    sub_literal k v (seg_text segs) = seg_filled segs.
  Proof.
    induction segs as [|[t m] segs IH]; intros M O; [reflexivity|].
    assert (O' : forall a b, seg_text segs = a ++ k ++ b -> exists s1 s2 : list (text * bool), segs = s1 ++ (k, true) :: s2 /\ a = seg_text s1).
    { intros a b E. destruct (O (t ++ a) b) as (s1 & s2 & E1 & E2); [unfold seg_text in *; cbn [map concat fst]; rewrite E, !app_assoc; reflexivity|].
      destruct s1 as [|sg s1]; cbn [app] in E1.
      - injection E1 as E1 E3 E4. unfold seg_text in E2. cbn in E2. subst t. apply app_eq_nil in E2 as [-> _]. contradiction.
      - injection E1 as E1 E3. exists s1, s2. split; [exact E3|]. subst sg. unfold seg_text in E2. cbn [map concat fst] in E2. apply app_inv_head in E2. exact E2. }
    specialize (IH (fun sg H => M sg (or_intror H)) O'). unfold seg_text, seg_filled in *. cbn [map concat fst snd]. destruct m.
    - assert (Et : t = k) by exact (M (t, true) (or_introl eq_refl) eq_refl). subst t. rewrite sub_match by exact K. f_equal. exact IH.
    - assert (G : forall p t', t = p ++ t' -> sub_literal k v (t' ++ concat (map fst segs)) = t' ++ concat (map (fun sg : text * bool => if snd sg then v else fst sg) segs)).
      { intros p t'. revert p. induction t' as [|c t' IHt]; intros p E; [exact IH|]. cbn [app]. rewrite sub_nomatch; [|exact K|].
        - f_equal. apply (IHt (p ++ [c])). rewrite <- app_assoc. exact E.
        - intros r Er. destruct (O p r) as (s1 & s2 & E1 & E2); [cbn [map concat fst]; rewrite E, <- app_assoc; cbn [app]; rewrite Er; reflexivity|].
          destruct s1 as [|sg s1]; cbn [app] in E1; [discriminate|]. injection E1 as E1 E3. subst sg. cbn [map concat fst] in E2. apply (f_equal (@List.length ascii)) in E2. rewrite E, !app_length in E2. cbn [List.length] in E2. lia. }
      apply (G [] t eq_refl).
  Qed.
End Segments.

(** a text without the first character of the key is passed *)
Lemma sub_pass a k v x y : ~ In a x -> sub_literal (a :: k) v (x ++ y) = x ++ sub_literal (a :: k) v y.
Proof.
  intros N. induction x as [|c x IH]; [reflexivity|]. cbn [app]. rewrite sub_nomatch; [|discriminate|].
  - f_equal. apply IH. intros H. apply N. right. exact H.
  - intros r E. cbn [app] in E. injection E as E _. apply N. left. exact E.
Qed.

(** a replacement without backslashes is taken as it is *)
Lemma expand_plain v : ~ In backslash v -> expand_replacement v = Ok v.
Proof.
  induction v as [|a v IH]; intros N; [reflexivity|]. cbn [expand_replacement]. destruct (Ascii.eqb_spec a backslash) as [->|D]; [exfalso; apply N; left; reflexivity|].
  rewrite IH by (intros H; apply N; right; exact H). reflexivity.
Qed.

(** ** Directories *)
Lemma mem_path_in p l : mem_path p l = true <-> In p l.
Proof. unfold mem_path. destruct (in_dec path_dec p l); split; auto; discriminate. Qed.
Lemma mkdir_cwd s p : cwd (fst (mkdir s p)) = cwd s.
Proof. unfold mkdir. destruct (_ || _); [reflexivity|]. destruct (_ || _); reflexivity. Qed.
Lemma mkdir_dirs s p q : In q (dirs (fst (mkdir s p))) <-> In q (dirs s) \/ (q = p /\ snd (mkdir s p) = None).
Proof.
  unfold mkdir. destruct (_ || _); [cbn; split; [auto|intros [H|[_ H]]; [exact H|discriminate]]|]. destruct (_ || _); cbn; [split; [auto|intros [H|[_ H]]; [exact H|discriminate]]|].
  split; [intros [<-|H]; auto|]. intros [H|[-> _]]; auto.
Qed.
Lemma chdir_false s p : snd (chdir s p) = false -> fst (chdir s p) = s.
Proof. unfold chdir. destruct (mem_path p (dirs s)); [discriminate|reflexivity]. Qed.
Lemma chdir_true s p : snd (chdir s p) = true <-> In p (dirs s).
Proof. unfold chdir. destruct (mem_path p (dirs s)) eqn:E; cbn; [rewrite mem_path_in in E; split; auto|]. split; [discriminate|]. intros H. apply mem_path_in in H. congruence. Qed.
Lemma chdir_cwd s p : snd (chdir s p) = true -> cwd (fst (chdir s p)) = p.
Proof. unfold chdir. destruct (mem_path p (dirs s)); [reflexivity|discriminate]. Qed.

Lemma enter_failed cd s e : snd (enter cd s) = Failed e -> cwd (fst (enter cd s)) = cwd s.
Proof.
  unfold enter. pose proof (mkdir_cwd s (cd_dir cd)) as M. destruct (mkdir s (cd_dir cd)) as [s1 [[]|]]; cbn [fst] in M |- *; [|auto|];
    (pose proof (chdir_false s1 (cd_dir cd)) as C; destruct (chdir s1 (cd_dir cd)) as [s2 []]; cbn [fst snd] in *; [discriminate|intros _; rewrite C; auto]).
Qed.
Lemma enter_done cd s : snd (enter cd s) = Done -> cwd (fst (enter cd s)) = cd_dir cd.
Proof.
  unfold enter. destruct (mkdir s (cd_dir cd)) as [s1 [[]|]]; [|discriminate|];
    (pose proof (chdir_cwd s1 (cd_dir cd)) as C; destruct (chdir s1 (cd_dir cd)) as [s2 []]; cbn [fst snd] in *; [auto|discriminate]).
Qed.
Lemma enter_dirs cd s q : In q (dirs s) -> In q (dirs (fst (enter cd s))).
Proof.
  intros H. unfold enter. assert (M : In q (dirs (fst (mkdir s (cd_dir cd))))) by (apply mkdir_dirs; auto). destruct (mkdir s (cd_dir cd)) as [s1 [[]|]]; cbn [fst] in M |- *; auto;
    unfold chdir; destruct (mem_path (cd_dir cd) (dirs s1)); cbn; exact M.
Qed.
Lemma with_block_cwd cd body s : cwd (fst (with_block cd body s)) = cd_cwd cd \/
  (cwd (fst (with_block cd body s)) = cwd s /\ exists e, snd (enter cd s) = Failed e) \/
  (snd (enter cd s) = Done /\ ~ In (cd_cwd cd) (dirs (fst (body (fst (enter cd s)))))).
Proof.
  unfold with_block. pose proof (enter_failed cd s) as F. destruct (enter cd s) as [s1 [|e]]; cbn [fst snd] in *; [|right; left; split; [apply (F e eq_refl)|eauto]].
  destruct (body s1) as [s2 r]. cbn [fst]. unfold exit. pose proof (chdir_cwd s2 (cd_cwd cd)) as C. pose proof (chdir_true s2 (cd_cwd cd)) as T. destruct (chdir s2 (cd_cwd cd)) as [s3 []]; cbn [fst snd] in *.
  - left. auto.
  - right. right. split; [reflexivity|]. intros H. apply T in H. discriminate.
Qed.
