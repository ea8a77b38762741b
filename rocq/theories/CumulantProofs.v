(** Many-body cumulant contractions. *)
From Verif Require Import PyBase SpaceModel IndicesModel IndicesProofs PartitionModel
  ElemModel ElemSpec ElemProofs IterProofs HalfProofs.
From Coq Require Import ZArith.

Lemma combinations_map {A B} (f : A -> B) l k : combinations (map f l) k = map (map f) (combinations l k).
Proof.
  revert k; induction l as [|x l IH]; intros [|k]; try reflexivity. cbn [map combinations].
  rewrite map_app, !map_map, !IH, map_map. reflexivity.
Qed.

Lemma flat_map_perm {A B} (f : A -> list B) l m : Permutation l m -> Permutation (flat_map f l) (flat_map f m).
Proof.
  induction 1; cbn [flat_map]; [reflexivity|apply Permutation_app_head; assumption| |etransitivity; eassumption].
  rewrite !app_assoc. apply Permutation_app_tail, Permutation_app_comm.
Qed.
Lemma flat_map_perm_ext {A B} (f g : A -> list B) l :
  (forall x, In x l -> Permutation (f x) (g x)) -> Permutation (flat_map f l) (flat_map g l).
Proof.
  induction l as [|x l IH]; intros H; [reflexivity|]. cbn [flat_map]. apply Permutation_app; [apply H; left; reflexivity|].
  apply IH. intros y Hy. apply H. right; exact Hy.
Qed.
Lemma map_filter_flat {A B} (f : A -> B) p l : map f (filter p l) = flat_map (fun x => if p x then [f x] else []) l.
Proof. induction l as [|x l IH]; [reflexivity|]. cbn [filter flat_map]. destruct (p x); cbn [map app]; rewrite IH; reflexivity. Qed.
Lemma flat_map_list_prod {A B C} (g : A * B -> list C) l m :
  flat_map g (list_prod l m) = flat_map (fun x => flat_map (fun y => g (x, y)) m) l.
Proof.
  induction l as [|x l IH]; [reflexivity|]. cbn [list_prod flat_map]. rewrite flat_map_app, IH. f_equal.
  clear. induction m as [|y m IH]; [reflexivity|]. cbn [map flat_map]. rewrite IH. reflexivity.
Qed.
Lemma flat_map_map {A B C} (g : B -> list C) (f : A -> B) l : flat_map g (map f l) = flat_map (fun x => g (f x)) l.
Proof. induction l as [|x l IH]; [reflexivity|]. cbn [map flat_map]. rewrite IH. reflexivity. Qed.

Definition dflt : idx := (Lab false Sg, 0).
Definition lookup (pure : list (list idx)) (p : nat * nat) : idx := nth (snd p) (nth (fst p) pure []) dflt.

Lemma legs_positions pure : legs pure = map (fun p => (fst p, lookup pure p)) (positions pure).
Proof.
  unfold legs, positions. rewrite map_flat_map. apply flat_map_ext_in. intros [i l] H. cbn [fst snd].
  apply in_enumerate in H as [_ H]. rewrite Nat.sub_0_r in H.
  rewrite map_map. cbn [fst snd]. unfold lookup. cbn [fst snd].
  rewrite (nth_error_nth pure i [] H). rewrite <- (map_nth_seq l dflt) at 1. rewrite map_map. reflexivity.
Qed.

Lemma in_positions pure p : In p (positions pure) -> leg_index pure p = Ok (lookup pure p).
Proof.
  intros H. unfold positions in H. apply in_flat_map in H as [[i l] [H1 H2]]. cbn [fst snd] in H2.
  apply in_map_iff in H2 as [j [<- H2]]. apply in_enumerate in H1 as [_ H1]. rewrite Nat.sub_0_r in H1.
  unfold leg_index, get_item, lookup. cbn [fst snd]. rewrite H1. cbn [pybind].
  rewrite (nth_error_nth pure i [] H1). apply in_seq in H2.
  rewrite (nth_error_nth' l dflt) by lia. reflexivity.
Qed.

Lemma all_same_ok x l : all_same (x :: l) = Ok (forallb (fun y => y =? x) (x :: l)).
Proof.
  cbn [all_same]. f_equal. generalize (x :: l). intros m. clear l.
  assert (G : length (filter (Nat.eqb x) m) <= length m).
  { clear. induction m as [|y m IH]; simpl; [lia|]. destruct (x =? y); simpl; lia. }
  revert G. induction m as [|y m IH]; intros G; [reflexivity|]. cbn [filter length forallb] in *.
  assert (G' : length (filter (Nat.eqb x) m) <= length m).
  { clear. induction m as [|z m IH]; simpl; [lia|]. destruct (x =? z); simpl; lia. }
  rewrite (Nat.eqb_sym y x). destruct (x =? y); cbn [length andb].
  - rewrite <- IH by exact G'. reflexivity.
  - apply Nat.eqb_neq. lia.
Qed.

Lemma one_operatorb_ok l : one_operatorb l = true <-> one_operator l.
Proof.
  unfold one_operatorb, one_operator. rewrite forallb_forall. split.
  - intros H x y Hx Hy. apply H in Hx, Hy. apply Nat.eqb_eq in Hx, Hy. congruence.
  - intros H x Hx. apply Nat.eqb_eq. destruct l as [|a l]; [destruct Hx|]. apply H; [exact Hx|left; reflexivity].
Qed.

Lemma one_operator_app x l y m :
  forallb (fun z => z =? x) (x :: l) && forallb (fun z => z =? y) (y :: m) && (x =? y) = one_operatorb ((x :: l) ++ (y :: m)).
Proof.
  unfold one_operatorb. cbn [app hd]. change (x :: l ++ y :: m) with ((x :: l) ++ y :: m). rewrite forallb_app.
  rewrite <- andb_assoc. f_equal. destruct (Nat.eqb_spec x y) as [->|N]; [apply andb_true_r|].
  rewrite andb_false_r. symmetry. cbn [forallb]. replace (y =? x) with false; [reflexivity|].
  symmetry. apply Nat.eqb_neq. congruence.
Qed.

Definition cum_ev (cl al : list (list idx)) (c a : list (nat * nat)) : list (list nat * econ) :=
  if one_operatorb (map fst c ++ map fst a) then []
  else [(map fst c ++ map fst a, Con false (map (lookup cl) c) (map (lookup al) a))].

Lemma make_so_ok l : NoDup l -> Forall alpha l -> make_so l = Ok l.
Proof.
  intros N A. unfold make_so. apply nodup_idx_spec in N. rewrite N.
  assert (E : existsb idx_beta l = false); [|rewrite E; reflexivity].
  apply not_true_is_false. intros E. apply existsb_exists in E as [i [Hi E]]. rewrite Forall_forall in A. specialize (A i Hi).
  unfold alpha, idx_beta in *. congruence.
Qed.
Lemma make_so_cases l : make_so l = Ok l /\ NoDup l \/ make_so l = Raise ValueError.
Proof. unfold make_so. destruct (nodup_idx l) eqn:E; [apply nodup_idx_spec in E|auto]. destruct (existsb idx_beta l); auto. Qed.

Lemma cumulant_event_cases cl al c a : c <> [] -> a <> [] -> incl c (positions cl) -> incl a (positions al) ->
  cumulant_event cl al c a =
    if one_operatorb (map fst c ++ map fst a) then Ok []
    else pybind (make_so (map (lookup cl) c)) (fun u => pybind (make_so (map (lookup al) a)) (fun l => Ok [(map fst c ++ map fst a, Con false u l)])).
Proof.
  intros Hc Ha Ic Ia. unfold cumulant_event.
  destruct c as [|[x0 x1] c]; [congruence|]. destruct a as [|[y0 y1] a]; [congruence|].
  cbn [map fst hd]. rewrite !all_same_ok. cbn [pybind].
  rewrite (pymap_total (leg_index cl) (lookup cl)) by (intros p Hp; apply in_positions, Ic, Hp).
  rewrite (pymap_total (leg_index al) (lookup al)) by (intros p Hp; apply in_positions, Ia, Hp). cbn [pybind].
  rewrite one_operator_app. cbn [app].
  destruct (one_operatorb _); reflexivity.
Qed.
Lemma cumulant_event_ok cl al c a : c <> [] -> a <> [] -> incl c (positions cl) -> incl a (positions al) ->
  NoDup (map (lookup cl) c) -> NoDup (map (lookup al) a) -> Forall alpha (map (lookup cl) c) -> Forall alpha (map (lookup al) a) ->
  cumulant_event cl al c a = Ok (cum_ev cl al c a).
Proof.
  intros Hc Ha Ic Ia Nc Na Ac Aa. rewrite cumulant_event_cases by assumption. unfold cum_ev.
  rewrite !make_so_ok by assumption. destruct (one_operatorb _); reflexivity.
Qed.

  Lemma level_choice_ok pure k c : 2 <= k -> In c (level_choices pure k) -> c <> [] /\ incl c (positions pure).
  Proof.
    intros Hk H. apply (Permutation_in _ (level_choices_spec pure 0 k Hk)) in H. apply in_combinations in H as [H1 H2]. split.
    - intros ->. simpl in H2. lia.
    - apply subseq_incl, H1.
  Qed.

Lemma append_all_filled {K V} (eqk : K -> K -> bool) (Heq : forall a b, eqk a b = true <-> a = b) ev (d : list (K * list V)) :
  incl (map fst d) (map fst (dict_items d)) -> incl (map fst (append_all eqk ev d)) (map fst (dict_items (append_all eqk ev d))).
Proof.
  intros H k Hk. rewrite (append_all_keys eqk Heq) in Hk.
  apply (Permutation_in k (Permutation_map fst (Permutation_sym (dict_items_append_all eqk Heq ev d)))). rewrite map_app, in_app_iff.
  destruct Hk as [Hk|Hk]; [auto|]. apply H in Hk. auto.
Qed.

Section Cum.
  Context (ops : list op) (max_cu : nat) (Hal : Forall op_alpha ops).
  Let cl := map (fun o => filter active_like (cre o)) ops.
  Let al := map (fun o => filter active_like (ann o)) ops.

  Definition cum_level (k : nat) : list (list nat * econ) :=
    flat_map (fun c => flat_map (cum_ev cl al c) (level_choices al k)) (level_choices cl k).

  Lemma snd_legs (pure : list (list idx)) : map snd (legs pure) = concat pure.
  Proof.
    unfold legs. generalize 0. induction pure as [|l pure IH]; intros n; [reflexivity|]. cbn [enumerate flat_map fst snd concat].
    rewrite map_app, IH, map_map. cbn. rewrite map_id. reflexivity.
  Qed.
  Lemma subseq_map {A B} (f : A -> B) c l : subseq c l -> subseq (map f c) (map f l).
  Proof. induction 1; cbn [map]; constructor; assumption. Qed.
  Lemma choice_good pure k c : 2 <= k -> NoDup (map snd (legs pure)) -> Forall alpha (concat pure) -> In c (level_choices pure k) ->
    NoDup (map (lookup pure) c) /\ Forall alpha (map (lookup pure) c).
  Proof.
    intros Hk N A H. apply (Permutation_in _ (level_choices_spec pure 0 k Hk)) in H. apply in_combinations in H as [H _].
    apply (subseq_map (lookup pure)) in H. assert (E : map (lookup pure) (positions pure) = map snd (legs pure)) by (rewrite legs_positions, map_map; reflexivity).
    rewrite E in H. split; [exact (subseq_NoDup _ _ H N)|]. rewrite snd_legs in H. apply Forall_forall. intros i Hi.
    rewrite Forall_forall in A. apply A, (subseq_incl _ _ H), Hi.
  Qed.
  Lemma alpha_active (f : op -> list idx) : (forall o, In o ops -> Forall alpha (f o)) -> Forall alpha (concat (map (fun o => filter active_like (f o)) ops)).
  Proof.
    intros H. apply Forall_forall. intros i Hi. apply in_concat in Hi as [l [Hl Hi]]. apply in_map_iff in Hl as [o [<- Ho]].
    apply filter_In in Hi as [Hi _]. specialize (H o Ho). rewrite Forall_forall in H. apply H, Hi.
  Qed.
  Lemma alpha_cl : Forall alpha (concat cl).
  Proof. apply alpha_active. intros o Ho. rewrite Forall_forall in Hal. apply Hal, Ho. Qed.
  Lemma alpha_al : Forall alpha (concat al).
  Proof. apply alpha_active. intros o Ho. rewrite Forall_forall in Hal. apply Hal, Ho. Qed.

  Definition bad_event (k : nat) (c a : list (nat * nat)) : Prop :=
    In c (level_choices cl k) /\ In a (level_choices al k) /\ one_operatorb (map fst c ++ map fst a) = false /\
    ~ (NoDup (map (lookup cl) c) /\ NoDup (map (lookup al) a)).
  Lemma cumulant_event_either k c a : 2 <= k -> In c (level_choices cl k) -> In a (level_choices al k) ->
    (cumulant_event cl al c a = Ok (cum_ev cl al c a) /\ ~ bad_event k c a) \/ (cumulant_event cl al c a = Raise ValueError /\ bad_event k c a).
  Proof.
    intros Hk Hc Ha. destruct (level_choice_ok cl k c Hk Hc) as [Hc1 Hc2]. destruct (level_choice_ok al k a Hk Ha) as [Ha1 Ha2].
    rewrite cumulant_event_cases by assumption. unfold cum_ev, bad_event. destruct (one_operatorb _) eqn:O; [left; split; [reflexivity|intros (_ & _ & H & _); discriminate]|].
    assert (Q : forall l, Forall alpha l -> make_so l = Ok l /\ NoDup l \/ make_so l = Raise ValueError /\ ~ NoDup l).
    { intros l A. destruct (nodup_idx l) eqn:E; [apply nodup_idx_spec in E; left; split; [apply make_so_ok|]; assumption|].
      right. unfold make_so. rewrite E. split; [reflexivity|]. intros N. apply nodup_idx_spec in N. congruence. }
    assert (Ac : Forall alpha (map (lookup cl) c)).
    { apply (Permutation_in _ (level_choices_spec cl 0 k Hk)), in_combinations in Hc as [Hc _]. apply (subseq_map (lookup cl)) in Hc.
      assert (E : map (lookup cl) (positions cl) = concat cl) by (rewrite <- snd_legs, legs_positions, map_map; reflexivity).
      rewrite E in Hc. apply Forall_forall. intros i Hi. pose proof alpha_cl as A. rewrite Forall_forall in A. apply A, (subseq_incl _ _ Hc), Hi. }
    assert (Aa : Forall alpha (map (lookup al) a)).
    { apply (Permutation_in _ (level_choices_spec al 0 k Hk)), in_combinations in Ha as [Ha _]. apply (subseq_map (lookup al)) in Ha.
      assert (E : map (lookup al) (positions al) = concat al) by (rewrite <- snd_legs, legs_positions, map_map; reflexivity).
      rewrite E in Ha. apply Forall_forall. intros i Hi. pose proof alpha_al as A. rewrite Forall_forall in A. apply A, (subseq_incl _ _ Ha), Hi. }
    destruct (Q _ Ac) as [[-> Nc]|[-> Nc]]; cbn [pybind]; [|right; split; [reflexivity|tauto]].
    destruct (Q _ Aa) as [[-> Na]|[-> Na]]; cbn [pybind]; [left|right]; (split; [reflexivity|tauto]).
  Qed.
  Lemma pymap_either {A B} (f : A -> pyres B) (g : A -> B) e l : (forall x, In x l -> f x = Ok (g x) \/ f x = Raise e) ->
    (pymap f l = Ok (map g l) /\ forall x, In x l -> f x = Ok (g x)) \/ (pymap f l = Raise e /\ exists x, In x l /\ f x = Raise e).
  Proof.
    induction l as [|x l IH]; intros H; cbn [pymap map]; [left; split; [reflexivity|intros x []]|].
    destruct (H x (or_introl eq_refl)) as [E|E]; rewrite E; cbn [pybind].
    - destruct IH as [[-> G]|[-> [y [Hy G]]]]; [intros y Hy; apply H; right; exact Hy| |]; cbn [pybind].
      + left. split; [reflexivity|]. intros y [<-|Hy]; [exact E|apply G, Hy].
      + right. split; [reflexivity|]. exists y. split; [right; exact Hy|exact G].
    - right. split; [reflexivity|]. exists x. split; [left; reflexivity|exact E].
  Qed.
  Lemma cumulant_events_either :
    (cumulant_events ops max_cu = Ok (flat_map cum_level (cu_levels max_cu)) /\ forall k c a, 2 <= k <= max_cu -> ~ bad_event k c a) \/
    (cumulant_events ops max_cu = Raise ValueError /\ exists k c a, 2 <= k <= max_cu /\ bad_event k c a).
  Proof.
    unfold cumulant_events. cbv zeta.
    destruct (half_cumulant_ok al max_cu) as [da [Ea [_ [_ Ga]]]].
    destruct (half_cumulant_ok cl max_cu) as [dc [Ec [_ [_ Gc]]]].
    assert (FE : forall f : op -> list idx, map (fun o => filter (fun i => negb (core_or_virtual i)) (f o)) ops =
                 map (fun o => filter active_like (f o)) ops).
    { intros f. apply map_ext. intros o. apply filter_ext. intros i. symmetry. apply active_like_ok. }
    rewrite !FE. fold cl al. rewrite Ea, Ec. cbn [pybind].
    set (mid := fun k c => pybind (dict_item Nat.eqb k da) (fun as_ => pybind (pymap (cumulant_event cl al c) as_) (fun r => Ok (concat r)))).
    set (outer := fun k => pybind (dict_item Nat.eqb k dc) (fun cs => pybind (pymap (mid k) cs) (fun r => Ok (concat r)))).
    assert (M : forall k c, 2 <= k <= max_cu -> In c (level_choices cl k) ->
      (mid k c = Ok (flat_map (cum_ev cl al c) (level_choices al k)) /\ forall a, ~ bad_event k c a) \/
      (mid k c = Raise ValueError /\ exists a, bad_event k c a)).
    { intros k c Hk Hc. unfold mid, dict_item. rewrite (Ga k Hk). cbn [pybind].
      destruct (pymap_either (cumulant_event cl al c) (cum_ev cl al c) ValueError (level_choices al k)) as [[-> G]|[-> [a [Ha G]]]]; cbn [pybind].
      - intros a Ha. destruct (cumulant_event_either k c a) as [[H _]|[H _]]; [lia|exact Hc|exact Ha| |]; auto.
      - left. split; [rewrite flat_map_concat_map; reflexivity|]. intros a B. pose proof B as (B1 & B2 & _). specialize (G a B2).
        destruct (cumulant_event_either k c a) as [[_ H]|[H _]]; [lia|exact Hc|exact B2| |congruence]. exact (H B).
      - right. split; [reflexivity|]. exists a. destruct (cumulant_event_either k c a) as [[H _]|[_ H]]; [lia|exact Hc|exact Ha|congruence|exact H]. }
    assert (O : forall k, In k (cu_levels max_cu) ->
      (outer k = Ok (cum_level k) /\ forall c a, ~ bad_event k c a) \/ (outer k = Raise ValueError /\ exists c a, bad_event k c a)).
    { intros k Hk. apply in_levels in Hk. unfold outer, dict_item. rewrite (Gc k Hk). cbn [pybind].
      destruct (pymap_either (mid k) (fun c => flat_map (cum_ev cl al c) (level_choices al k)) ValueError (level_choices cl k)) as [[-> G]|[-> [c [Hc G]]]]; cbn [pybind].
      - intros c Hc. destruct (M k c Hk Hc) as [[H _]|[H _]]; auto.
      - left. split; [unfold cum_level; rewrite flat_map_concat_map; reflexivity|]. intros c a B. pose proof B as (B1 & _). specialize (G c B1).
        destruct (M k c Hk B1) as [[_ H]|[H _]]; [exact (H a B)|congruence].
      - right. split; [reflexivity|]. exists c. destruct (M k c Hk Hc) as [[H _]|[_ H]]; [congruence|exact H]. }
    destruct (pymap_either outer cum_level ValueError (cu_levels max_cu)) as [[E G]|[E [k [Hk G]]]].
    - intros k Hk. destruct (O k Hk) as [[H _]|[H _]]; auto.
    - left. unfold outer, mid in E. rewrite E. cbn [pybind]. split; [rewrite flat_map_concat_map; reflexivity|].
      intros k c a Hk B. apply in_levels in Hk. destruct (O k Hk) as [[_ H]|[H _]]; [exact (H c a B)|]. rewrite (G k Hk) in H. discriminate.
    - right. unfold outer, mid in E. rewrite E. cbn [pybind]. split; [reflexivity|]. exists k. destruct (O k Hk) as [[H _]|[_ [c [a H]]]]; [congruence|].
      exists c, a. split; [apply in_levels, Hk|exact H].
  Qed.

  Lemma cumulant_events_ok : distinct_active ops -> cumulant_events ops max_cu = Ok (flat_map cum_level (cu_levels max_cu)).
  Proof.
    intros Hd. destruct cumulant_events_either as [[E _]|[_ [k [c [a [Hk (B1 & B2 & _ & B3)]]]]]]; [exact E|exfalso; apply B3].
    split; [apply (choice_good cl k c)|apply (choice_good al k a)]; try apply Hd; try apply alpha_cl; try apply alpha_al; assumption || lia.
  Qed.

  Lemma cum_level_spec k : 2 <= k -> Permutation (cum_level k) (cumulant_choices ops k).
  Proof.
    intros Hk. unfold cum_level, cumulant_choices.
    rewrite map_filter_flat, flat_map_list_prod.
    rewrite (flat_map_perm _ _ _ (level_choices_spec cl 0 k Hk)).
    unfold cre_legs, ann_legs. fold cl al. rewrite !legs_positions, !combinations_map, flat_map_map.
    apply flat_map_perm_ext. intros c _. rewrite (flat_map_perm _ _ _ (level_choices_spec al 0 k Hk)), flat_map_map.
    apply flat_map_perm_ext. intros a _. unfold cum_ev. cbn [fst snd]. rewrite !map_map. cbn [fst snd].
    destruct (one_operatorb _); reflexivity.
  Qed.

  Lemma cumulant_events_perm : distinct_active ops -> exists ev, cumulant_events ops max_cu = Ok ev /\
    Permutation ev (flat_map (cumulant_choices ops) (cu_levels max_cu)).
  Proof.
    intros Hd. eexists. split; [apply cumulant_events_ok, Hd|]. apply flat_map_perm_ext. intros k Hk. apply in_levels in Hk.
    apply cum_level_spec. lia.
  Qed.

  Lemma bad_event_repeated : (exists k c a, 2 <= k <= max_cu /\ bad_event k c a) <-> repeated_choice ops max_cu.
  Proof.
    assert (L : forall pure k l, 2 <= k -> (exists c, In c (level_choices pure k) /\ l = map (fun p => (fst p, lookup pure p)) c) <-> In l (combinations (legs pure) k)).
    { intros pure k l Hk. rewrite legs_positions, combinations_map, in_map_iff. pose proof (level_choices_spec pure 0 k Hk) as P. split.
      - intros [c [H ->]]. exists c. split; [reflexivity|]. apply (Permutation_in _ P), H.
      - intros [c [<- H]]. exists c. split; [apply (Permutation_in _ (Permutation_sym P)), H|reflexivity]. }
    unfold bad_event, repeated_choice, cre_legs, ann_legs. fold cl al. split.
    - intros (k & c & a & Hk & Hc & Ha & O & N). exists k, (map (fun p => (fst p, lookup cl p)) c), (map (fun p => (fst p, lookup al p)) a).
      split; [exact Hk|]. split; [apply L; [lia|]; exists c; auto|]. split; [apply L; [lia|]; exists a; auto|].
      rewrite !map_map. cbn [fst snd]. split; [|exact N]. intros G. apply one_operatorb_ok in G. discriminate (eq_trans (eq_sym O) G).
    - intros (k & c & a & Hk & Hc & Ha & O & N). apply L in Hc as [c' [Hc ->]]; [|lia]. apply L in Ha as [a' [Ha ->]]; [|lia].
      exists k, c', a'. rewrite !map_map in O, N. cbn [fst snd] in O, N. repeat split; try assumption; try lia.
      apply not_true_is_false. intros G. apply O, one_operatorb_ok, G.
  Qed.
  Lemma elementary_cumulant_either :
    (exists d, elementary_cumulant ops max_cu = Ok d /\ NoDup (map fst d) /\
       Permutation (dict_items d) (flat_map (cumulant_choices ops) (cu_levels max_cu)) /\ incl (map fst d) (map fst (dict_items d)) /\
       ~ repeated_choice ops max_cu) \/
    (elementary_cumulant ops max_cu = Raise ValueError /\ repeated_choice ops max_cu).
  Proof.
    unfold elementary_cumulant. destruct cumulant_events_either as [[E G]|[E G]]; rewrite E; cbn [pybind]; [left|right].
    - eexists. split; [reflexivity|]. split; [apply append_all_nodup; [apply key_eqb_eq|constructor]|]. split.
      + rewrite (dict_items_append_all key_eqb key_eqb_eq). cbn [dict_items flat_map]. rewrite app_nil_r.
        apply flat_map_perm_ext. intros k Hk. apply in_levels in Hk. apply cum_level_spec. lia.
      + split; [apply append_all_filled; [apply key_eqb_eq|intros k []]|]. rewrite <- bad_event_repeated. intros (k & c & a & Hk & B). exact (G k c a Hk B).
    - split; [reflexivity|]. apply bad_event_repeated, G.
  Qed.
  Lemma distinct_not_repeated : distinct_active ops -> ~ repeated_choice ops max_cu.
  Proof.
    intros [N1 N2] (k & c & a & Hk & Hc & Ha & _ & B). apply B. apply in_combinations in Hc as [Hc _], Ha as [Ha _].
    split; [apply (subseq_NoDup _ (map snd (cre_legs ops))); [apply subseq_map, Hc|exact N1]|].
    apply (subseq_NoDup _ (map snd (ann_legs ops))); [apply subseq_map, Ha|exact N2].
  Qed.
  Lemma elementary_cumulant_spec : distinct_active ops -> exists d, elementary_cumulant ops max_cu = Ok d /\ NoDup (map fst d) /\
    Permutation (dict_items d) (flat_map (cumulant_choices ops) (cu_levels max_cu)).
  Proof.
    intros Hd. destruct elementary_cumulant_either as [(d & E & N & P & _ & _)|[_ R]]; [exists d; auto|]. exfalso. exact (distinct_not_repeated Hd R).
  Qed.
  Lemma elementary_cumulant_repeated : repeated_choice ops max_cu -> elementary_cumulant ops max_cu = Raise ValueError.
  Proof. intros R. destruct elementary_cumulant_either as [(d & E & N & P & F & G)|[E _]]; [contradiction|exact E]. Qed.

  Lemma cumulant_choice_len k key c : In (key, c) (cumulant_choices ops k) -> length key = k + k.
  Proof.
    unfold cumulant_choices. intros H. apply in_map_iff in H as [[x y] [[= <- _] H]]. apply filter_In in H as [H _].
    apply in_prod_iff in H as [H1 H2]. apply in_combinations in H1 as [_ H1], H2 as [_ H2]. cbn [fst snd].
    rewrite app_length, !map_length. lia.
  Qed.
End Cum.

(** The whole dictionary of elementary contractions. *)
Definition all_items (ops : list op) (K : nat) : list (list nat * econ) :=
  pairwise_events 0 ops ++ flat_map (cumulant_choices ops) (cu_levels K).
Lemma elementary_categorized_either ops max_cu : Forall op_alpha ops ->
  let K := Z.to_nat (check_max_cu ops max_cu) in
  (exists d, elementary_categorized ops max_cu = Ok d /\ NoDup (map fst d) /\ Permutation (dict_items d) (all_items ops K) /\
     incl (map fst d) (map fst (all_items ops K)) /\ ~ repeated_choice ops K) \/
  (elementary_categorized ops max_cu = Raise ValueError /\ repeated_choice ops K).
Proof.
  intros Hal K. unfold elementary_categorized, all_items. destruct (Z.ltb_spec (check_max_cu ops max_cu) 2) as [L|L].
  - left. exists (elementary_pairwise ops). split; [reflexivity|]. split; [apply pairwise_wf|]. split.
    + replace (cu_levels K) with (@nil nat).
      * unfold elementary_pairwise. rewrite (dict_items_append_all key_eqb key_eqb_eq). reflexivity.
      * unfold cu_levels. replace (K - 1) with 0 by (unfold K; lia). reflexivity.
    + split; [|intros (k & c & a & Hk & _); unfold K in Hk; lia].
      intros k Hk. unfold elementary_pairwise in Hk. rewrite (append_all_keys key_eqb key_eqb_eq) in Hk. destruct Hk as [Hk|[]].
      rewrite map_app, in_app_iff. auto.
  - fold K. destruct (elementary_cumulant_either ops K Hal) as [(d & E & N & P & F & G)|[E G]]; rewrite E; cbn [pybind]; [left|right; auto].
    eexists. split; [reflexivity|].
    assert (Q : Permutation (dict_items (elementary_pairwise ops)) (pairwise_events 0 ops)).
    { unfold elementary_pairwise. rewrite (dict_items_append_all key_eqb key_eqb_eq). cbn. rewrite app_nil_r. reflexivity. }
    assert (K1 : forall k, In k (map fst (elementary_pairwise ops)) -> length k = 2).
    { intros k H. unfold elementary_pairwise in H. rewrite (append_all_keys key_eqb key_eqb_eq) in H.
      destruct H as [H|[]]. apply in_map_iff in H as [[k' c] [<- H]]. apply pairwise_events_keys in H.
      destruct H as (i & j & _ & [[-> _]|[-> _]]); reflexivity. }
    assert (K2 : forall k, In k (map fst d) -> 4 <= length k).
    { intros k H. unfold elementary_cumulant in E. destruct (cumulant_events_either ops K Hal) as [[Ev _]|[Ev _]]; rewrite Ev in E; cbn [pybind] in E; [|discriminate].
      injection E as <-. rewrite (append_all_keys key_eqb key_eqb_eq) in H.
      destruct H as [H|[]]. apply in_map_iff in H as [[k' c] [<- H]].
      apply in_flat_map in H as [q [H1 H2]]. apply in_levels in H1. apply (Permutation_in _ (cum_level_spec ops q (proj1 H1))) in H2.
      apply cumulant_choice_len in H2. cbn [fst]. lia. }
    rewrite (dict_update_new key_eqb key_eqb_eq _ _ N).
    + split; [|split; [|split; [|exact G]]].
      * rewrite map_app. apply NoDup_app_intro; [apply pairwise_wf|exact N|].
        intros k H1 H2. apply K1 in H1. apply K2 in H2. lia.
      * unfold dict_items at 1. rewrite flat_map_app. apply Permutation_app; [exact Q|exact P].
      * intros k Hk. rewrite map_app, in_app_iff in *. destruct Hk as [Hk|Hk].
        -- left. unfold elementary_pairwise in Hk. rewrite (append_all_keys key_eqb key_eqb_eq) in Hk. destruct Hk as [Hk|[]]. exact Hk.
        -- right. apply F in Hk. apply (Permutation_in _ (Permutation_map fst P)), Hk.
    + intros k H1 H2. apply K2 in H1. apply K1 in H2. lia.
Qed.
Lemma elementary_categorized_spec ops max_cu : Forall op_alpha ops -> distinct_active ops -> exists d, elementary_categorized ops max_cu = Ok d /\ NoDup (map fst d) /\
  Permutation (dict_items d)
    (pairwise_events 0 ops ++ flat_map (cumulant_choices ops) (cu_levels (Z.to_nat (check_max_cu ops max_cu)))).
Proof.
  intros Hal Hd. destruct (elementary_categorized_either ops max_cu Hal) as [(d & E & N & P & _ & _)|[_ R]]; [exists d; auto|].
  exfalso. exact (distinct_not_repeated ops _ Hd R).
Qed.
Lemma items_values (d : list (list nat * list econ)) : concat (map snd d) = map snd (dict_items d).
Proof.
  unfold dict_items. rewrite map_flat_map, <- flat_map_concat_map. apply flat_map_ext_in. intros [k v] _. cbn. rewrite map_map. cbn. symmetry. apply map_id.
Qed.
