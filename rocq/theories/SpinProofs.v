(** Proofs about spin cases and about the comparison methods. *)
From Verif Require Import PyBase OrderSpec OrderProofs ParitySpec ParityProofs SpaceModel SpaceProofs IndicesModel IterProofs IndicesProofs.
From Coq Require Import ZArith String Sorting.Sorted.
Local Notation length := List.length.

(** A labelling of alpha indices by spins. *)
Definition spin_labelling (l l' : list idx) : Prop :=
  Forall2 (fun i j => j = i \/ j = idx_to_beta i) l l'.
Definition all_alpha (l : list idx) : Prop := Forall (fun i => idx_beta i = false) l.

Lemma to_beta_beta i : idx_beta (idx_to_beta i) = true.
Proof. reflexivity. Qed.
Lemma to_beta_idem i : idx_to_beta (idx_to_beta i) = idx_to_beta i.
Proof. reflexivity. Qed.
Lemma to_alpha_beta i : idx_beta i = false -> idx_to_alpha (idx_to_beta i) = i.
Proof. destruct i as [[b s] n]. unfold idx_beta, idx_to_alpha; simpl. intros ->. reflexivity. Qed.
Lemma to_alpha_alpha i : idx_beta i = false -> idx_to_alpha i = i.
Proof. destruct i as [[b s] n]. unfold idx_beta, idx_to_alpha; simpl. intros ->. reflexivity. Qed.

Lemma labelling_alpha l l' : all_alpha l -> spin_labelling l l' -> map idx_to_alpha l' = l.
Proof.
  intros Ha H. induction H as [|i j l l' Hij H IH]; [reflexivity|]. inversion Ha; subst. simpl.
  rewrite IH by assumption. f_equal. destruct Hij as [->| ->]; [apply to_alpha_alpha|apply to_alpha_beta]; assumption.
Qed.

Lemma labelling_NoDup l l' : all_alpha l -> NoDup l -> spin_labelling l l' -> NoDup l'.
Proof. intros Ha ND H. apply (NoDup_map_inv idx_to_alpha). rewrite (labelling_alpha l l' Ha H). exact ND. Qed.

Lemma labelling_length l l' : spin_labelling l l' -> length l' = length l.
Proof. intros H. symmetry. eapply Forall2_len, H. Qed.

(** A labelling given by a predicate on positions. *)
Definition label_by (f : nat -> bool) (l : list idx) : list idx :=
  map (fun i => if f i then idx_to_beta (nth i l (Lab false Sg, 0)) else nth i l (Lab false Sg, 0)) (seq 0 (length l)).

Lemma label_by_cons f i l :
  label_by f (i :: l) = (if f 0 then idx_to_beta i else i) :: label_by (fun k => f (S k)) l.
Proof. unfold label_by. cbn [length seq map]. f_equal. rewrite <- seq_shift, map_map. reflexivity. Qed.

Lemma label_by_labelling f l : spin_labelling l (label_by f l).
Proof.
  revert f; induction l as [|i l IH]; intros f; [constructor|]. rewrite label_by_cons. constructor; [|apply IH].
  destruct (f 0); auto.
Qed.

Lemma label_by_n_beta f l : all_alpha l -> n_beta (label_by f l) = length (filter f (seq 0 (length l))).
Proof.
  revert f; induction l as [|i l IH]; intros f Ha; [reflexivity|]. inversion Ha; subst.
  rewrite label_by_cons. cbn [length seq filter]. rewrite <- seq_shift, filter_map_comm.
  unfold n_beta in *. cbn [filter].
  destruct (f 0).
  - rewrite to_beta_beta. cbn [length]. f_equal. rewrite map_length. apply IH. assumption.
  - rewrite H1, map_length. apply IH. assumption.
Qed.

Lemma labelling_label_by l l' : all_alpha l -> spin_labelling l l' ->
  l' = label_by (fun k => match nth_error l' k with Some j => idx_beta j | None => false end) l.
Proof.
  intros Ha H. induction H as [|i j l l' Hij H IH]; [reflexivity|]. inversion Ha; subst.
  rewrite label_by_cons. simpl nth_error at 1. cbn [nth_error]. f_equal.
  - destruct Hij as [->| ->]; [rewrite H2|rewrite to_beta_beta]; reflexivity.
  - apply IH. assumption.
Qed.

Lemma label_by_inj f g l : all_alpha l ->
  label_by f l = label_by g l -> forall k, k < length l -> f k = g k.
Proof.
  revert f g; induction l as [|i l IH]; intros f g Ha E k Hk; [simpl in Hk; lia|]. inversion Ha; subst.
  rewrite !label_by_cons in E. injection E as E0 E. destruct k as [|k].
  - assert (X : idx_to_beta i <> i) by (intros X; apply (f_equal idx_beta) in X; rewrite to_beta_beta in X; congruence).
    destruct (f 0), (g 0); congruence.
  - apply (IH (fun k => f (S k)) (fun k => g (S k))); auto. simpl in Hk; lia.
Qed.

Lemma label_by_ext f g l : (forall k, k < length l -> f k = g k) -> label_by f l = label_by g l.
Proof.
  intros H. unfold label_by. apply map_ext_in. intros k Hk. apply in_seq in Hk. rewrite H by lia. reflexivity.
Qed.

(** ** all spin cases *)
Lemma combine_flip l spins : length spins = length l ->
  map (fun p : idx * nat => if snd p =? 0 then fst p else idx_to_beta (fst p)) (combine l spins)
  = label_by (fun k => negb (nth k spins 0 =? 0)) l.
Proof.
  revert spins; induction l as [|i l IH]; intros [|s spins] H; try discriminate; [reflexivity|].
  rewrite label_by_cons. cbn [combine map fst snd nth]. f_equal; [destruct (s =? 0); reflexivity|].
  apply IH. simpl in H; congruence.
Qed.

Lemma in_spins n s : In s (iproduct (repeat [0; 1] n)) <-> length s = n /\ Forall (fun x => x = 0 \/ x = 1) s.
Proof.
  rewrite in_iproduct. revert s; induction n as [|n IH]; intros s; simpl.
  - split; [inversion 1; subst; split; [reflexivity|constructor]|]. intros [H _]. destruct s; [constructor|discriminate].
  - split.
    + intros H. inversion H as [|x y l1 l2 Hx Hr]; subst. apply IH in Hr as [E F]. split; [simpl; congruence|]. constructor; [|exact F].
      destruct Hx as [<-|[<-|[]]]; auto.
    + intros [E F]. destruct s as [|x s]; [discriminate|]. inversion F; subst. constructor.
      * destruct H1; subst; simpl; auto.
      * apply IH. split; [simpl in E; congruence|assumption].
Qed.

Lemma make_si_ok l : NoDup l -> make_si l = Ok l.
Proof. intros H. unfold make_si. apply nodup_idx_spec in H. rewrite H. reflexivity. Qed.

Lemma spin_cases_all_eq l : all_alpha l -> NoDup l ->
  spin_cases_all l = Ok (map (fun spins => label_by (fun k => negb (nth k spins 0 =? 0)) l) (iproduct (repeat [0; 1] (length l)))).
Proof.
  intros Ha ND. unfold spin_cases_all. apply pymap_total. intros s Hs. apply in_spins in Hs as [E _].
  rewrite combine_flip by exact E. apply make_si_ok. eapply labelling_NoDup; [exact Ha|exact ND|apply label_by_labelling].
Qed.

Lemma spin_cases_all_ok l : all_alpha l -> NoDup l ->
  exists r, spin_cases_all l = Ok r /\ NoDup r /\ length r = 2 ^ length l /\
            (forall l', In l' r <-> spin_labelling l l').
Proof.
  intros Ha ND. eexists. split; [apply spin_cases_all_eq; assumption|]. split; [|split].
  - apply NoDup_map_in.
    + intros s t Hs Ht E. apply in_spins in Hs as [Ls Fs]. apply in_spins in Ht as [Lt Ft].
      rewrite Forall_forall in Fs, Ft.
      apply (nth_ext s t 0 0); [congruence|]. intros k Hk.
      pose proof (label_by_inj _ _ l Ha E k ltac:(lia)) as G. simpl in G.
      assert (In (nth k s 0) s) as Is by (apply nth_In; lia). assert (In (nth k t 0) t) as It by (apply nth_In; lia).
      apply Fs in Is. apply Ft in It. destruct Is as [Is|Is], It as [It|It]; rewrite Is, It in *; discriminate || reflexivity.
    + apply nodup_iproduct. apply Forall_forall. intros x Hx. apply repeat_spec in Hx. subst.
      repeat constructor; simpl; intuition lia.
  - rewrite map_length, iproduct_length. induction (length l) as [|n IH]; [reflexivity|]. simpl. rewrite IH. lia.
  - intros l'. rewrite in_map_iff. split.
    + intros [s [<- _]]. apply label_by_labelling.
    + intros H. exists (map (fun j => if idx_beta j then 1 else 0) l').
      assert (Ll : length l' = length l) by (apply labelling_length, H). split.
      * transitivity (label_by (fun k => match nth_error l' k with Some j => idx_beta j | None => false end) l);
          [|symmetry; apply labelling_label_by; assumption]. apply label_by_ext. intros k Hk.
        destruct (nth_error l' k) as [j|] eqn:E; [|apply nth_error_None in E; lia].
        apply (map_nth_error (fun j => if idx_beta j then 1 else 0)) in E.
        rewrite (nth_error_nth _ _ 0 E). destruct (idx_beta j); reflexivity.
      * apply in_spins. rewrite map_length. split; [exact Ll|]. apply Forall_forall. intros x Hx.
        apply in_map_iff in Hx as [j [<- _]]. destruct (idx_beta j); auto.
Qed.

(** ** spin cases with k beta indices *)
Definition memn (x : nat) (l : list nat) : bool := existsb (Nat.eqb x) l.
Lemma memn_in x l : memn x l = true <-> In x l.
Proof.
  unfold memn. rewrite existsb_exists. split; [intros [y [Hy E]]; apply Nat.eqb_eq in E; subst; auto|].
  intros H; exists x; split; [exact H|apply Nat.eqb_refl].
Qed.

Lemma set_beta_map g k s n :
  set_beta k (map g (seq s n)) = map (fun i => if i =? s + k then idx_to_beta (g i) else g i) (seq s n).
Proof.
  revert k s; induction n as [|n IH]; intros k s; [destruct k; reflexivity|]. cbn [seq map]. destruct k as [|k]; cbn [set_beta].
  - rewrite Nat.add_0_r, Nat.eqb_refl. f_equal. apply map_ext_in. intros i Hi. apply in_seq in Hi.
    destruct (Nat.eqb_spec i s); [lia|reflexivity].
  - destruct (Nat.eqb_spec s (s + S k)); [lia|]. f_equal. rewrite IH. apply map_ext. intros i.
    replace (S s + k) with (s + S k) by lia. reflexivity.
Qed.

Lemma fold_set_beta bs l : fold_left (fun is k => set_beta k is) bs l = label_by (fun k => memn k bs) l.
Proof.
  unfold label_by. set (d := (Lab false Sg, 0)).
  assert (G : forall g n, fold_left (fun is k => set_beta k is) bs (map g (seq 0 n))
            = map (fun i => if memn i bs then idx_to_beta (g i) else g i) (seq 0 n)).
  { induction bs as [|b bs IH]; intros g n; [simpl; reflexivity|]. cbn [fold_left].
    rewrite set_beta_map, IH. apply map_ext. intros i. unfold memn. cbn [existsb].
    change (0 + b) with b. destruct (i =? b), (existsb (Nat.eqb i) bs); reflexivity. }
  rewrite <- G. f_equal. symmetry. apply map_nth_seq.
Qed.

Lemma spin_cases_k_eq k l : all_alpha l -> NoDup l -> (0 <= k <= Z.of_nat (length l))%Z ->
  spin_cases_k k l = Ok (map (fun bs => label_by (fun k => memn k bs) l) (combinations (seq 0 (length l)) (Z.to_nat k))).
Proof.
  intros Ha ND Hk. unfold spin_cases_k.
  destruct (Z.ltb_spec (Z.of_nat (length l)) k); [lia|]. destruct (Z.ltb_spec k 0); [lia|].
  apply pymap_total. intros s Hs. rewrite fold_set_beta. apply make_si_ok.
  eapply labelling_NoDup; [exact Ha|exact ND|apply label_by_labelling].
Qed.

Lemma spin_cases_k_raises k l : all_alpha l -> NoDup l ->
  (exists e, spin_cases_k k l = Raise e) <-> ~ (0 <= k <= Z.of_nat (length l))%Z.
Proof.
  intros Ha ND. split.
  - intros [e E] H. rewrite spin_cases_k_eq in E by assumption. discriminate.
  - intros H. exists ValueError. unfold spin_cases_k.
    destruct (Z.ltb_spec (Z.of_nat (length l)) k); [reflexivity|]. destruct (Z.ltb_spec k 0); [reflexivity|lia].
Qed.

Lemma spin_cases_k_ok k l : all_alpha l -> NoDup l -> (0 <= k <= Z.of_nat (length l))%Z ->
  exists r, spin_cases_k k l = Ok r /\ NoDup r /\
            length r * (fact (Z.to_nat k) * fact (length l - Z.to_nat k)) = fact (length l) /\
            (forall l', In l' r <-> spin_labelling l l' /\ Z.of_nat (n_beta l') = k).
Proof.
  intros Ha ND Hk. eexists. split; [apply spin_cases_k_eq; assumption|]. split; [|split].
  - apply NoDup_map_in.
    + intros s t Hs Ht E. apply in_combinations in Hs as [Ss _]. apply in_combinations in Ht as [St _].
      rewrite (subseq_is_filter memn memn_in s _ Ss (seq_NoDup _ _)).
      rewrite (subseq_is_filter memn memn_in t _ St (seq_NoDup _ _)).
      apply filter_ext_in. intros x Hx. apply in_seq in Hx.
      apply (label_by_inj _ _ l Ha E x ltac:(lia)).
    + apply nodup_combinations, seq_NoDup.
  - rewrite map_length, combinations_length, seq_length. apply binomial_fact. lia.
  - intros l'. rewrite in_map_iff. split.
    + intros [bs [<- Hb]]. apply in_combinations in Hb as [Sb Lb]. split; [apply label_by_labelling|].
      rewrite label_by_n_beta by exact Ha.
      rewrite <- (subseq_is_filter memn memn_in bs _ Sb (seq_NoDup _ _)). lia.
    + intros [H Hn].
      set (f := fun k => match nth_error l' k with Some j => idx_beta j | None => false end).
      assert (El : l' = label_by f l) by (apply labelling_label_by; assumption).
      exists (filter f (seq 0 (length l))). split.
      * rewrite El. apply label_by_ext. intros x Hx. apply eq_true_iff_eq. rewrite memn_in, filter_In, in_seq. intuition lia.
      * apply in_combinations. split; [apply subseq_filter|].
        rewrite <- label_by_n_beta by exact Ha. rewrite <- El. lia.
Qed.

Lemma n_beta_bound l l' : all_alpha l -> spin_labelling l l' -> n_beta l' <= length l.
Proof.
  intros Ha H. rewrite (labelling_label_by l l' Ha H). rewrite label_by_n_beta by exact Ha.
  transitivity (length (seq 0 (length l))); [|rewrite seq_length; lia].
  generalize (seq 0 (length l)). intros s. induction s; simpl; [lia|]. destruct (match nth_error l' a with Some j => idx_beta j | None => false end); simpl; lia.
Qed.

(** ** pairs *)
Lemma pymap_concat {A B} (f : A -> pyres (list B)) (l : list A) (P : A -> B -> Prop) :
  NoDup l ->
  (forall x, In x l -> exists r, f x = Ok r /\ NoDup r /\ forall y, In y r <-> P x y) ->
  (forall x x' y, In x l -> In x' l -> P x y -> P x' y -> x = x') ->
  exists r, pybind (pymap f l) (fun lls => Ok (List.concat lls)) = Ok r /\ NoDup r /\
            forall y, In y r <-> exists x, In x l /\ P x y.
Proof.
  induction l as [|x l IH]; intros ND H D.
  - exists []. split; [reflexivity|]. split; [constructor|]. intros y; split; [intros []|intros [x [[] _]]].
  - inversion ND; subst. destruct (H x (or_introl eq_refl)) as [r [E [Nr Hr]]].
    destruct (IH H3) as [r' [E' [Nr' Hr']]]; [intros; apply H; right; assumption|intros a b y Ha Hb; apply D; right; assumption|].
    cbn [pymap]. rewrite E. cbn [pybind]. destruct (pymap f l) as [ll|e]; [|discriminate].
    cbn [pybind] in *. injection E' as <-. exists (r ++ List.concat ll). split; [reflexivity|]. split.
    + apply NoDup_app_intro; [exact Nr|exact Nr'|]. intros y Hy G. apply Hr in Hy. apply Hr' in G as [x' [Hx' G]].
      assert (x = x') by (eapply D; [left; reflexivity|right; exact Hx'|exact Hy|exact G]). subst; contradiction.
    + intros y. rewrite in_app_iff, Hr, Hr'. split.
      * intros [G|[x' [Hx' G]]]; [exists x; split; [left; reflexivity|exact G]|exists x'; split; [right; exact Hx'|exact G]].
      * intros [x' [[<-|Hx'] G]]; [left; exact G|right; exists x'; split; assumption].
Qed.

Lemma spin_cases_pair_ok (pc : bool) u l :
  all_alpha u -> NoDup u -> all_alpha l -> NoDup l ->
  (pc = true -> length u = length l) ->
  exists r, spin_cases_pair pc u l = Ok r /\ NoDup r /\
    forall u' l', In (u', l') r <->
      spin_labelling u u' /\ spin_labelling l l' /\ (pc = true -> n_beta u' = n_beta l').
Proof.
  intros Hu Nu Hl Nl Hpc. unfold spin_cases_pair.
  assert (Eg : pc && negb (length u =? length l) = false).
  { destruct pc; [|reflexivity]. rewrite Hpc by reflexivity. rewrite Nat.eqb_refl. reflexivity. }
  rewrite Eg. destruct (spin_cases_all_ok u Hu Nu) as [us [Eu [Nus [_ Hus]]]]. rewrite Eu. cbn [pybind].
  destruct (pymap_concat
    (fun u0 : list idx => pybind (if pc then spin_cases_k (Z.of_nat (n_beta u0)) l else spin_cases_all l)
                     (fun ls => Ok (map (pair u0) ls))) us
    (fun u0 y => fst y = u0 /\ spin_labelling l (snd y) /\ (pc = true -> n_beta u0 = n_beta (snd y)))) as [r [E [Nr Hr]]].
  - exact Nus.
  - intros u0 H0. apply Hus in H0. destruct pc.
    + destruct (spin_cases_k_ok (Z.of_nat (n_beta u0)) l Hl Nl) as [ls [El [Nls [_ Hls]]]].
      { pose proof (n_beta_bound u u0 Hu H0). rewrite Hpc in H by reflexivity. lia. }
      rewrite El. eexists. split; [reflexivity|]. split; [apply NoDup_map_in; [congruence|exact Nls]|].
      intros [a b]. rewrite in_map_iff. simpl. split.
      * intros [x [E Hx]]. injection E as <- <-. apply Hls in Hx as [H1 H2]. repeat split; auto. intros _. lia.
      * intros [<- [H1 H2]]. exists b. split; [reflexivity|]. apply Hls. split; [exact H1|]. rewrite H2 by reflexivity. reflexivity.
    + destruct (spin_cases_all_ok l Hl Nl) as [ls [El [Nls [_ Hls]]]].
      rewrite El. eexists. split; [reflexivity|]. split; [apply NoDup_map_in; [congruence|exact Nls]|].
      intros [a b]. rewrite in_map_iff. simpl. split.
      * intros [x [E Hx]]. injection E as <- <-. apply Hls in Hx. repeat split; auto. discriminate.
      * intros [<- [H1 _]]. exists b. split; [reflexivity|]. apply Hls. exact H1.
  - intros x x' y _ _ [E _] [E' _]. congruence.
  - exists r. split; [exact E|]. split; [exact Nr|]. intros u' l'. rewrite Hr. simpl. split.
    + intros [x [Hx [<- [H1 H2]]]]. apply Hus in Hx. auto.
    + intros [H1 [H2 H3]]. exists u'. split; [apply Hus, H1|]. auto.
Qed.

(** ** orders *)


Lemma indices_lawful : lawful indices_ord.
Proof. apply key_lawful, pair_lawful; [apply nat_lawful|apply list_lawful, idx_lawful]. Qed.

Lemma indices_ext : extensional indices_ord.
Proof.
  apply key_ext; [|apply pair_ext; [apply nat_ext|apply list_ext, idx_ext]].
  intros a b E. congruence.
Qed.

Lemma pair_indices_lawful : lawful pair_indices_ord.
Proof. apply pair_lawful; apply indices_lawful. Qed.
Lemma pair_indices_ext : extensional pair_indices_ord.
Proof. apply pair_ext; apply indices_ext. Qed.

Lemma tensor_key_lawful : lawful tensor_key_ord.
Proof.
  apply key_lawful. apply pair_lawful; [apply Z_lawful|]. apply pair_lawful; [apply string_lawful|].
  apply pair_lawful; [apply nat_lawful|]. apply pair_indices_lawful.
Qed.
Lemma tensor_key_ext : extensional tensor_key_ord.
Proof.
  apply key_ext.
  - intros [p n u l] [p' n' u' l']. unfold comparison_tuple; simpl. intros E. injection E. intros; subst; reflexivity.
  - apply pair_ext; [apply Z_ext|]. apply pair_ext; [apply string_ext|].
    apply pair_ext; [apply nat_ext|]. apply pair_indices_ext.
Qed.

(** Size dominates the comparison of Indices. *)
Lemma indices_size_first a b : length a < length b -> plt indices_ord a b = true.
Proof.
  intros H. cbn. unfold pair_op. cbn. destruct (Nat.eqb_spec (length a) (length b)); [lia|].
  apply Nat.ltb_lt, H.
Qed.
