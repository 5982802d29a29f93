*.vo
*.vok
*.vos
*.glob
*.aux
.*.aux
*.cache
.nra.cache
.lia.cache
rocq/Makefile
rocq/Makefile.conf
rocq/.Makefile.d
rocq/.CoqMakefile.d
