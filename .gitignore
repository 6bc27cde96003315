*.vo
*.vok
*.vos
*.glob
*.aux
.*.aux
.lia.cache
.nia.cache
*.cache
rocq/Makefile
rocq/Makefile.conf
rocq/.Makefile.d
