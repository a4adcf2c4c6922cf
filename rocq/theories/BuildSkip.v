(** Pruning happens after the level loop: the loop does not read [skip_prune]. *)
From Coq Require Import List Arith ZArith Lia Bool.
From Verif Require Import Base Tree TreeBuild.
Import ListNotations.

(** the same input with another value of the skip_prune argument *)
Definition with_skip_prune (b : bool) (inp : input) : input :=
  {| idim := idim inp; npart := npart inp; nsrc := nsrc inp; same := same inp; coord := coord inp; ext := ext inp;
     weight := weight inp; max_weight := max_weight inp; bbox_min := bbox_min inp; bbox_max := bbox_max inp;
     build_kind := build_kind inp; nlevels_max := nlevels_max inp; skip_prune := b; nboxes_guess := nboxes_guess inp;
     lr_lookbehind := lr_lookbehind inp |}.

Section Skip.
Variable b : bool.
Variable inp : input.
Notation inp' := (with_skip_prune b inp).
Lemma nchild_skip : nchild inp' = nchild inp. Proof. reflexivity. Qed.
Hint Rewrite nchild_skip : skip.
Lemma particle_bits_skip : particle_bits inp' = particle_bits inp.
Proof. unfold particle_bits. autorewrite with skip. reflexivity. Qed.
Hint Rewrite particle_bits_skip : skip.
Lemma next_center2_skip : next_center2 inp' = next_center2 inp.
Proof. unfold next_center2. autorewrite with skip. reflexivity. Qed.
Hint Rewrite next_center2_skip : skip.
Lemma sticks_out_linf_skip : sticks_out_linf inp' = sticks_out_linf inp.
Proof. unfold sticks_out_linf. autorewrite with skip. reflexivity. Qed.
Hint Rewrite sticks_out_linf_skip : skip.
Lemma sticks_out_l2_skip : sticks_out_l2 inp' = sticks_out_l2 inp.
Proof. unfold sticks_out_l2. autorewrite with skip. reflexivity. Qed.
Hint Rewrite sticks_out_l2_skip : skip.
Lemma stop_descent_skip : stop_descent inp' = stop_descent inp.
Proof. unfold stop_descent. autorewrite with skip. reflexivity. Qed.
Hint Rewrite stop_descent_skip : skip.
Lemma morton_number_skip : morton_number inp' = morton_number inp.
Proof. unfold morton_number. autorewrite with skip. reflexivity. Qed.
Hint Rewrite morton_number_skip : skip.
Lemma morton_skip : morton inp' = morton inp.
Proof. unfold morton. autorewrite with skip. reflexivity. Qed.
Hint Rewrite morton_skip : skip.
Lemma initial_state_skip : initial_state inp' = initial_state inp.
Proof. unfold initial_state. autorewrite with skip. reflexivity. Qed.
Hint Rewrite initial_state_skip : skip.
Lemma morton_nrs_skip : morton_nrs inp' = morton_nrs inp.
Proof. unfold morton_nrs. autorewrite with skip. reflexivity. Qed.
Hint Rewrite morton_nrs_skip : skip.
Lemma bin_counts_skip : bin_counts inp' = bin_counts inp.
Proof. unfold bin_counts. autorewrite with skip. reflexivity. Qed.
Hint Rewrite bin_counts_skip : skip.
Lemma bin_wts_skip : bin_wts inp' = bin_wts inp.
Proof. unfold bin_wts. autorewrite with skip. reflexivity. Qed.
Hint Rewrite bin_wts_skip : skip.
Lemma is_last_in_box_skip : is_last_in_box inp' = is_last_in_box inp.
Proof. unfold is_last_in_box. autorewrite with skip. reflexivity. Qed.
Hint Rewrite is_last_in_box_skip : skip.
Lemma box_bins_skip : box_bins inp' = box_bins inp.
Proof. unfold box_bins. autorewrite with skip. reflexivity. Qed.
Hint Rewrite box_bins_skip : skip.
Lemma box_wts_skip : box_wts inp' = box_wts inp.
Proof. unfold box_wts. autorewrite with skip. reflexivity. Qed.
Hint Rewrite box_wts_skip : skip.
Lemma box_refine_weight_skip : box_refine_weight inp' = box_refine_weight inp.
Proof. unfold box_refine_weight. autorewrite with skip. reflexivity. Qed.
Hint Rewrite box_refine_weight_skip : skip.
Lemma overfull_skip : overfull inp' = overfull inp.
Proof. unfold overfull. autorewrite with skip. reflexivity. Qed.
Hint Rewrite overfull_skip : skip.
Lemma splits_skip : splits inp' = splits inp.
Proof. unfold splits. autorewrite with skip. reflexivity. Qed.
Hint Rewrite splits_skip : skip.
Lemma max_subbox_weight_skip : max_subbox_weight inp' = max_subbox_weight inp.
Proof. unfold max_subbox_weight. autorewrite with skip. reflexivity. Qed.
Hint Rewrite max_subbox_weight_skip : skip.
Lemma oversize_skip : oversize inp' = oversize inp.
Proof. unfold oversize. autorewrite with skip. reflexivity. Qed.
Hint Rewrite oversize_skip : skip.
Lemma boxes_needed_skip : boxes_needed inp' = boxes_needed inp.
Proof. unfold boxes_needed. autorewrite with skip. reflexivity. Qed.
Hint Rewrite boxes_needed_skip : skip.
Lemma split_box_ids_skip : split_box_ids inp' = split_box_ids inp.
Proof. unfold split_box_ids. autorewrite with skip. reflexivity. Qed.
Hint Rewrite split_box_ids_skip : skip.
Lemma new_leaves_skip : new_leaves inp' = new_leaves inp.
Proof. unfold new_leaves. autorewrite with skip. reflexivity. Qed.
Hint Rewrite new_leaves_skip : skip.
Lemma padding_skip : padding inp' = padding inp.
Proof. unfold padding. autorewrite with skip. reflexivity. Qed.
Hint Rewrite padding_skip : skip.
Lemma minimal_new_length_skip : minimal_new_length inp' = minimal_new_length inp.
Proof. unfold minimal_new_length. autorewrite with skip. reflexivity. Qed.
Hint Rewrite minimal_new_length_skip : skip.
Lemma new_lstart_skip : new_lstart inp' = new_lstart inp.
Proof. unfold new_lstart. autorewrite with skip. reflexivity. Qed.
Hint Rewrite new_lstart_skip : skip.
Lemma renumbered_skip : renumbered inp' = renumbered inp.
Proof. unfold renumbered. autorewrite with skip. reflexivity. Qed.
Hint Rewrite renumbered_skip : skip.
Lemma do_split_skip : do_split inp' = do_split inp.
Proof. unfold do_split. autorewrite with skip. reflexivity. Qed.
Hint Rewrite do_split_skip : skip.
Lemma split_boxes_skip : split_boxes inp' = split_boxes inp.
Proof. unfold split_boxes. autorewrite with skip. reflexivity. Qed.
Hint Rewrite split_boxes_skip : skip.
Lemma new_box_id_skip : new_box_id inp' = new_box_id inp.
Proof. unfold new_box_id. autorewrite with skip. reflexivity. Qed.
Hint Rewrite new_box_id_skip : skip.
Lemma split_writes_skip : @split_writes inp' = @split_writes inp.
Proof. unfold split_writes. autorewrite with skip. reflexivity. Qed.
Hint Rewrite split_writes_skip : skip.
Lemma new_center_skip : new_center inp' = new_center inp.
Proof. unfold new_center. autorewrite with skip. reflexivity. Qed.
Hint Rewrite new_center_skip : skip.
Lemma splitter_skip : splitter inp' = splitter inp.
Proof. unfold splitter. autorewrite with skip. reflexivity. Qed.
Hint Rewrite splitter_skip : skip.
Lemma target_index_skip : target_index inp' = target_index inp.
Proof. unfold target_index. autorewrite with skip. reflexivity. Qed.
Hint Rewrite target_index_skip : skip.
Lemma target_box_skip : target_box inp' = target_box inp.
Proof. unfold target_box. autorewrite with skip. reflexivity. Qed.
Hint Rewrite target_box_skip : skip.
Lemma renumber_particles_skip : renumber_particles inp' = renumber_particles inp.
Proof. unfold renumber_particles. autorewrite with skip. reflexivity. Qed.
Hint Rewrite renumber_particles_skip : skip.
Lemma tree_of_state_skip : tree_of_state inp' = tree_of_state inp.
Proof. unfold tree_of_state. autorewrite with skip. reflexivity. Qed.
Hint Rewrite tree_of_state_skip : skip.
Lemma restrict_box_skip : restrict_box inp' = restrict_box inp.
Proof. unfold restrict_box. autorewrite with skip. reflexivity. Qed.
Hint Rewrite restrict_box_skip : skip.
Lemma restrict_levels_skip : restrict_levels inp' = restrict_levels inp.
Proof. unfold restrict_levels. autorewrite with skip. reflexivity. Qed.
Hint Rewrite restrict_levels_skip : skip.
Lemma scanned_skip : scanned inp' = scanned inp.
Proof. unfold scanned. autorewrite with skip. reflexivity. Qed.
Hint Rewrite scanned_skip : skip.
Lemma marked_skip : marked inp' = marked inp.
Proof. unfold marked. autorewrite with skip. reflexivity. Qed.
Hint Rewrite marked_skip : skip.
Lemma advance_skip : advance inp' = advance inp.
Proof. unfold advance. autorewrite with skip. reflexivity. Qed.
Hint Rewrite advance_skip : skip.
Lemma after_split_skip : after_split inp' = after_split inp.
Proof. unfold after_split. autorewrite with skip. reflexivity. Qed.
Hint Rewrite after_split_skip : skip.
Lemma step_skip : step inp' = step inp.
Proof. unfold step. autorewrite with skip. reflexivity. Qed.
Hint Rewrite step_skip : skip.
Lemma loop_skip : loop inp' = loop inp.
Proof. unfold loop. autorewrite with skip. reflexivity. Qed.
Hint Rewrite loop_skip : skip.
Lemma level_loop_skip : level_loop inp' = level_loop inp.
Proof. unfold level_loop. autorewrite with skip. reflexivity. Qed.
Hint Rewrite level_loop_skip : skip.
End Skip.
