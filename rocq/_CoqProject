-Q theories Verif
theories/Base.v
theories/Dim_Model.v
theories/Dim_Proofs.v
theories/Dim_Properties.v
theories/Load_Model.v
theories/Load_Spec.v
theories/Load_Proofs.v
theories/Load_Properties.v
theories/Adaptive_Model.v
theories/Adaptive_Proofs.v
theories/Adaptive_Properties.v
theories/Num.v
theories/Grid_Model.v
theories/Grid_Tests.v
theories/Grid_Spec.v
theories/Grid_Proofs.v
theories/Grid_Rebuild.v
theories/Grid_Ops.v
theories/MutableGrid_Model.v
theories/MutableGrid_Spec.v
theories/MutableGrid_Proofs.v
theories/Grid_Refutations.v
theories/Grid_Properties.v
theories/MutableGrid_Properties.v
theories/Cplx.v
theories/Bound_Model.v
theories/Bound_Spec.v
theories/Bound_Proofs.v
theories/Bound_Properties.v
theories/Round125_Model.v
theories/Round125_Proofs.v
theories/Display_Model.v
theories/Display_Spec.v
theories/Display_Proofs.v
theories/Display_Extent.v
theories/Display_Tests.v
theories/Round125_Properties.v
theories/Display_Properties.v
theories/CSum.v
theories/Field.v
theories/Fourier_Model.v
theories/Fourier_Spec.v
theories/Fourier_Proofs.v
theories/Fourier_Properties.v
theories/Vec_Model.v
theories/Vec_Spec.v
theories/Vec_Proofs.v
theories/Vec_Grid.v
theories/Vec_Properties.v
theories/Solver_Model.v
theories/Solver_Spec.v
theories/Solver_Proofs.v
theories/Solver_Convergence.v
theories/Solver_Limit.v
theories/Solver_Choice.v
theories/Solver_Properties.v
theories/Derived_Model.v
theories/Derived_Spec.v
theories/Derived_Tensor.v
theories/Solver_Maxwell.v
theories/Solver_Bounded.v
theories/Derived_Proofs.v
theories/Derived_Density.v
theories/Derived_Properties.v
theories/Run_Model.v
theories/Run_Spec.v
theories/Run_Proofs.v
theories/Run_Solve.v
theories/Run_Zero.v
theories/Run_Epsilon.v
theories/Run_Converge.v
theories/Run_Glue.v
theories/Run_Properties.v
theories/Array_Model.v
theories/Array_Spec.v
theories/Array_Proofs.v
theories/Array_Assign.v
theories/Array_Glue.v
theories/Setup_Model.v
theories/Setup_Proofs.v
theories/Array_Properties.v
theories/Matrix_Model.v
theories/Matrix_Spec.v
theories/Matrix_Proofs.v
theories/Matrix_Cache.v
theories/Matrix_Properties.v
theories/Convert_Model.v
theories/Convert_Spec.v
theories/Convert_Proofs.v
theories/Convert_Properties.v
theories/Modes_Model.v
theories/Modes_Spec.v
theories/Modes_Proofs.v
theories/Modes_Waves.v
theories/Modes_Fields.v
theories/Modes_Refuted.v
theories/Modes_Properties.v
theories/Roots_Model.v
theories/Roots_Spec.v
theories/Roots_Formulas.v
theories/Roots_Proofs.v
theories/Roots_Eigen.v
theories/Roots_Properties.v
theories/Beam_Model.v
theories/Beam_Spec.v
theories/Beam_Proofs.v
theories/Beam_Media.v
theories/Beam_Slices.v
theories/Beam_More.v
theories/Beam_Return.v
theories/Beam_Vector.v
theories/Beam_Power.v
theories/Beam_Lost.v
theories/Beam_Properties.v
theories/Shift_Model.v
theories/Shift_Spec.v
theories/Shift_Proofs.v
theories/Shift_Moves.v
theories/Register_Model.v
theories/Register_Spec.v
theories/Register_Proofs.v
theories/Register_Whole.v
theories/Register_Fine.v
theories/Register_Uses.v
theories/Register_Near.v
theories/Register_History.v
theories/Register_Limits.v
theories/Shift_Properties.v
theories/Register_Properties.v
theories/Memory_Model.v
theories/Memory_Spec.v
theories/Memory_Proofs.v
theories/Memory_Steps.v
theories/Memory_Reads.v
theories/Memory_Sessions.v
theories/Memory_Properties.v
theories/Eigen_Bound.v
theories/Choice_Model.v
theories/Choice_Proofs.v
theories/Choice_Construct.v
theories/Choice_Gain.v
theories/Choice_Properties.v
theories/Operator_Convergence.v
theories/Magnetic_Norm.v
theories/Magnetic_Spec.v
theories/Magnetic_Choice.v
theories/Magnetic_Proofs.v
theories/Magnetic_Properties.v
theories/Material_Model.v
theories/Material_Spec.v
theories/Material_Proofs.v
theories/Material_Waves.v
theories/Material_More.v
theories/Material_Properties.v
theories/Symmetry_Spec.v
theories/Symmetry_Linear.v
theories/Symmetry_Limit.v
theories/Symmetry_Reciprocity.v
theories/Symmetry_Shift.v
theories/Symmetry_Embed.v
theories/Symmetry_Results.v
theories/Symmetry_Properties.v
theories/Float_Model.v
theories/Float_Spec.v
theories/Float_Basics.v
theories/Float_Proofs.v
theories/Float_Accuracy.v
theories/Float_Construct.v
theories/Float_Derived.v
theories/Float_Examples.v
theories/Float_Properties.v
theories/Torch_Model.v
theories/Torch_Spec.v
theories/Torch_Proofs.v
theories/Torch_Roots.v
theories/Torch_Properties.v
theories/Robust_Spec.v
theories/Robust_Proofs.v
theories/Robust_Properties.v
theories/Iterators_Model.v
theories/Iterators_Spec.v
theories/Iterators_Proofs.v
theories/Iterators_Properties.v
theories/Scatter_Model.v
theories/Scatter_Spec.v
theories/Scatter_Proofs.v
theories/Scatter_Properties.v
theories/Magnetic_Run.v
theories/Construct_Model.v
theories/Construct_Proofs.v
theories/Construct_Properties.v
theories/Symmetry_Mirror.v
theories/Mirror_Properties.v
theories/Bound64_Spec.v
theories/Bound64_Proofs.v
theories/Bound64_Properties.v
theories/Maxwell_Spec.v
theories/Maxwell_Proofs.v
theories/Maxwell_Shift.v
theories/Maxwell_Properties.v
theories/Cell_Spec.v
theories/Cell_Proofs.v
theories/Cell_Uniform.v
theories/Cell_Properties.v
theories/Run_Magnetic.v
theories/Magneto_Properties.v
theories/Robust_Magnetic.v
theories/Maxwell_Mirror.v
theories/Chiral_Properties.v
theories/Bright_Spec.v
theories/Bright_Proofs.v
theories/Bright_Properties.v
theories/Stored_Model.v
theories/Stored_Spec.v
theories/Stored_Proofs.v
theories/Stored_Properties.v
theories/Entry_Model.v
theories/Entry_Spec.v
theories/Entry_Proofs.v
theories/Entry_Properties.v
theories/Whole_Model.v
theories/Whole_Spec.v
theories/Whole_Proofs.v
theories/Whole_Results.v
theories/Whole_Properties.v
theories/Algebra_Model.v
theories/Algebra_Spec.v
theories/Algebra_Proofs.v
theories/Algebra_Properties.v
theories/Launch_Model.v
theories/Launch_Spec.v
theories/Launch_Proofs.v
theories/Launch_Results.v
theories/Launch_Properties.v
theories/Whole_Magnetic.v
theories/Whole_Magnetic_Properties.v
theories/Media_Model.v
theories/Media_Spec.v
theories/Media_Proofs.v
theories/Media_Results.v
theories/Media_Properties.v
theories/Equal_Model.v
theories/Equal_Proofs.v
theories/Equal_Float.v
theories/Equal_Properties.v
theories/Warm_Model.v
theories/Warm_Proofs.v
theories/Warm_Properties.v
theories/Index_Model.v
theories/Index_Spec.v
theories/Index_Proofs.v
theories/Index_Properties.v
theories/Colormap_Model.v
theories/Colormap_Spec.v
theories/Colormap_Proofs.v
theories/Colormap_Properties.v
theories/Warm_Magnetic.v
theories/Warm_Magnetic_Properties.v
theories/Axes_Model.v
theories/Axes_Spec.v
theories/Axes_Proofs.v
theories/Axes_Properties.v
theories/Import_Model.v
theories/Import_Spec.v
theories/Import_Proofs.v
theories/Import_Properties.v
theories/Reuse_Proofs.v
theories/Reuse_Properties.v
theories/Reuse_Magnetic.v
theories/Reuse_Magnetic_Properties.v
theories/Swap_Model.v
theories/Swap_Spec.v
theories/Swap_Proofs.v
theories/Swap_Properties.v
theories/Power_Spec.v
theories/Power_Proofs.v
theories/Power_Properties.v
theories/Circular_Spec.v
theories/Circular_Proofs.v
theories/Circular_Properties.v
theories/Form_Spec.v
theories/Form_Proofs.v
theories/Form_Properties.v
theories/Replace_Spec.v
theories/Replace_Keep.v
theories/Replace_Proofs.v
theories/Replace_Properties.v
theories/Image_Model.v
theories/Image_Spec.v
theories/Image_Proofs.v
theories/Image_Bytes.v
theories/Image_Properties.v
theories/Maxwell_Embed.v
theories/Plane_Spec.v
theories/Plane_Proofs.v
theories/Plane_Properties.v
theories/Interrupt_Model.v
theories/Interrupt_Spec.v
theories/Interrupt_Proofs.v
theories/Interrupt_Steps.v
theories/Interrupt_Results.v
theories/Interrupt_Refuted.v
theories/Interrupt_Properties.v
theories/Abandon_Model.v
theories/Abandon_Proofs.v
theories/Abandon_Properties.v
theories/Device_Model.v
theories/Device_Spec.v
theories/Device_Proofs.v
theories/Device_Properties.v
theories/Scalar_Proofs.v
theories/Scalar_Properties.v
theories/Dtype_Model.v
theories/Dtype_Proofs.v
theories/Dtype_Properties.v
theories/Drift_Model.v
theories/Drift_Spec.v
theories/Drift_Proofs.v
theories/Drift_Properties.v
theories/Ranges_Spec.v
theories/Ranges_Proofs.v
theories/Ranges_Properties.v
theories/Scratch_Model.v
theories/Scratch_Proofs.v
theories/Scratch_Properties.v
theories/Element_Model.v
theories/Element_Spec.v
theories/Element_Proofs.v
theories/Element_Properties.v
theories/Assign_Model.v
theories/Assign_Spec.v
theories/Assign_Proofs.v
theories/Assign_Properties.v
theories/Unit_Spec.v
theories/Unit_Proofs.v
theories/Unit_Properties.v
theories/Displace_Spec.v
theories/Displace_Proofs.v
theories/Displace_Properties.v
theories/Reflect_Spec.v
theories/Reflect_Proofs.v
theories/Reflect_Properties.v
theories/Superpose_Spec.v
theories/Superpose_Proofs.v
theories/Superpose_Properties.v
theories/Relabel_Spec.v
theories/Relabel_Proofs.v
theories/Relabel_Properties.v
theories/Periodic_Proofs.v
theories/Periodic64_Proofs.v
theories/Periodic_Properties.v
theories/Nearby_Spec.v
theories/Nearby_Proofs.v
theories/Nearby_Properties.v
theories/Polar_Spec.v
theories/Polar_Proofs.v
theories/Polar_Properties.v
theories/Tiled_Spec.v
theories/Tiled_Proofs.v
theories/Tiled_Properties.v
theories/Neglect_Spec.v
theories/Neglect_Proofs.v
theories/Neglect_Properties.v
theories/Detour_Spec.v
theories/Detour_Proofs.v
theories/Detour_Properties.v
theories/Divide_Spec.v
theories/Divide_Proofs.v
theories/Divide_Properties.v
theories/Bounds_Proofs.v
theories/Bounds_Properties.v
theories/Smooth_Spec.v
theories/Smooth_Proofs.v
theories/Smooth_Properties.v
theories/Backdrop_Spec.v
theories/Backdrop_Proofs.v
theories/Backdrop_Properties.v
theories/Tint_Spec.v
theories/Tint_Proofs.v
theories/Tint_Properties.v
theories/Return_Spec.v
theories/Return_Proofs.v
theories/Return_Vector.v
theories/Return_Properties.v
theories/Ortho_Spec.v
theories/Ortho_Proofs.v
theories/Ortho_Properties.v
theories/TiledBounds_Proofs.v
theories/TiledBounds_Properties.v
theories/Sides_Proofs.v
theories/Sides_Properties.v
theories/Operand_Model.v
theories/Operand_Proofs.v
theories/Operand_Properties.v
