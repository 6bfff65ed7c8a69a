*.vo
*.vok
*.vos
*.glob
*.aux
.*.aux
*.d
rocq/Makefile
rocq/Makefile.conf
.lia.cache
.nia.cache
.nra.cache
