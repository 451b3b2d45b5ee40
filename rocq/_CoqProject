-Q theories Verif
theories/Base.v
theories/Heap.v
theories/Conc.v
theories/M_Addr.v
theories/S_Addr.v
theories/L_Addr.v
theories/M_Elt.v
theories/L_Elt.v
theories/T_Addr.v
theories/M_Einsum.v
theories/S_Einsum.v
theories/L_Einsum.v
theories/T_Einsum.v
theories/S_Blas.v
theories/M_Blas.v
theories/L_Blas.v
theories/T_Blas.v
theories/M_Dispatch.v
theories/S_Dispatch.v
theories/L_Dispatch.v
theories/L_Paths.v
theories/T_Dispatch.v
theories/M_Sort.v
theories/T_Sort.v
theories/M_Block.v
theories/S_Block.v
theories/L_Block.v
theories/T_Block.v
theories/M_Tiled.v
theories/S_Tiled.v
theories/L_Tiled.v
theories/L_Tiled2.v
theories/L_TGemm.v
theories/T_Tiled.v
theories/M_Red.v
theories/S_Red.v
theories/L_Red.v
theories/T_Red.v
theories/Num.v
theories/M_Util.v
theories/S_Util.v
theories/L_Util.v
theories/T_Util.v
theories/T_Double.v
theories/M_Timer.v
theories/S_Timer.v
theories/T_Timer.v
theories/M_Fold.v
theories/S_Fold.v
theories/L_Fold.v
theories/T_Fold.v
theories/M_Disk.v
theories/S_Disk.v
theories/L_Disk.v
theories/T_Disk.v
theories/M_Fun.v
theories/S_Fun.v
theories/T_Fun.v
theories/M_Arith.v
theories/S_Arith.v
theories/T_Arith.v
theories/M_Runtime.v
theories/S_Runtime.v
theories/T_Runtime.v
theories/M_BlockEinsum.v
theories/S_BlockEinsum.v
theories/L_BlockEinsum.v
theories/T_BlockEinsum.v
theories/M_Laguerre.v
theories/S_Laguerre.v
theories/T_Laguerre.v
theories/M_Infer.v
theories/S_Infer.v
theories/L_Infer.v
theories/T_Infer.v
theories/M_Lapack.v
theories/S_Lapack.v
theories/L_Lapack.v
theories/T_Lapack.v
theories/T_Lapack2.v
theories/M_TileEinsum.v
theories/S_TileEinsum.v
theories/L_TileEinsum.v
theories/T_TileEinsum.v
theories/M_MixEinsum.v
theories/S_MixEinsum.v
theories/L_MixEinsum.v
theories/T_MixEinsum.v
theories/M_BlockArith.v
theories/T_BlockArith.v
theories/M_Value.v
theories/S_Value.v
theories/L_Value.v
theories/L_Value2.v
theories/T_Value.v
theories/M_Generic.v
theories/S_Generic.v
theories/L_Generic.v
theories/T_Generic.v
theories/M_Decomp.v
theories/S_Decomp.v
theories/L_Decomp.v
theories/T_Decomp.v
theories/M_Als.v
theories/S_Als.v
theories/T_Als.v
theories/M_PyEinsum.v
theories/S_PyEinsum.v
theories/L_PyEinsum.v
theories/L_PyPlans.v
theories/L_PyBlas.v
theories/T_PyEinsum.v
theories/L_PyChoice.v
theories/M_Geev.v
theories/S_Geev.v
theories/T_Geev.v
theories/M_PyTensor.v
theories/S_PyTensor.v
theories/T_PyIndex.v
theories/T_PyBuf.v
theories/T_PyIter.v
theories/M_BlockLapack.v
theories/L_BlockLapack.v
theories/T_BlockLapack.v
theories/M_Trunc.v
theories/S_Trunc.v
theories/L_Trunc.v
theories/T_Trunc.v
theories/T_Trunc2.v
theories/M_Elem.v
theories/T_Elem.v
theories/M_Create.v
theories/T_Create.v
theories/T_Random.v
theories/T_Definite.v
theories/M_BlockSort.v
theories/T_BlockSort.v
theories/M_Fft.v
theories/T_Fft.v
theories/M_Section.v
theories/T_Section.v
theories/M_Print.v
theories/T_Print.v
theories/M_Alloc.v
theories/T_Alloc.v
theories/GpuConc.v
theories/M_Gpu.v
theories/L_Gpu.v
theories/S_Gpu.v
theories/L_GpuOps.v
theories/L_GpuRed.v
theories/T_Gpu.v
theories/T_GpuOps.v
theories/M_GpuLin.v
theories/S_GpuLin.v
theories/L_GpuLin.v
theories/T_GpuLin.v
theories/M_GpuView.v
theories/S_GpuView.v
theories/L_GpuView.v
theories/T_GpuView.v
theories/M_DevMem.v
theories/S_DevMem.v
theories/L_DevMem.v
theories/T_DevMem.v
theories/M_Tucker.v
theories/S_Tucker.v
theories/T_Tucker.v
theories/M_HipBlas.v
theories/S_HipBlas.v
theories/L_HipBlas.v
theories/L2_HipBlas.v
theories/T_HipBlas.v
theories/S_HipSolver.v
theories/L_HipSolver.v
theories/T_HipSolver.v
theories/M_Store.v
theories/S_Store.v
theories/L_Store.v
theories/T_Store.v
theories/M_TileConc.v
theories/L_TileConc.v
theories/L_TileGemv.v
theories/T_TileConc.v
theories/M_Null.v
theories/S_Null.v
theories/T_Null.v
theories/M_Life.v
theories/T_Life.v
theories/M_Stream.v
theories/S_Stream.v
theories/T_Stream.v
theories/M_Gauss.v
theories/S_Gauss.v
theories/L_Gauss.v
theories/T_Gauss.v
theories/M_PyUtils.v
theories/S_PyUtils.v
theories/T_PyUtils.v
theories/M_GpuLife.v
theories/S_GpuLife.v
theories/T_GpuLife.v
theories/M_Librett.v
theories/T_Librett.v
theories/M_Mixed.v
theories/S_Mixed.v
theories/T_Mixed.v
theories/M_SumSq.v
theories/S_SumSq.v
theories/T_SumSq.v
theories/M_PyCall.v
theories/S_PyCall.v
theories/T_PyCall.v
theories/T_TileAcc.v
theories/M_Hash.v
theories/S_Hash.v
theories/T_Hash.v
theories/T_TileScale.v
